(* Properties C35 (the HDF5 file holds the global field) and C36 (the XDMF file). *)
From Verif Require Import PyBase GridModel GridProofs StorageModel StorageProofs GlobalModel GlobalProofs Hdf5Model Hdf5Proofs.
From Coq Require Import ZifyBool QArith.
Ltac Zify.zify_post_hook ::= Z.div_mod_to_equations.
Open Scope Z_scope.

(* A grid of ns cells split over a grid P of processes; pieces: the coordinates owned by the processes. *)
Definition split_ok {X} (ns : list Z) (P : list nat) (pieces : list (list (list X))) : Prop :=
  Forall (fun n => 0 <= n) ns /\ Forall (fun p => (1 <= p)%nat) P /\ length ns = length P /\ length pieces = length P /\
  forall d, (d < length P)%nat -> pieces_ok (nth d ns 0) (nth d P 0%nat) (nth d pieces []).
(* The data of the process r is the part of the global field F on its region. *)
Definition part_of {V} (ns : list Z) (P : list nat) (F : list Z -> V) (r : nat) (f : data V) : Prop :=
  exists reg, get_region ns P (cart_coords P r) = Some reg /\
    t_shape f = map (fun s => snd s - fst s) reg /\
    forall i, in_shape i (t_shape f) -> t_val f i = F (map2 Z.add (map fst reg) i).

Section H5.
Context {X V : Type} (zero unknown : V).
Variable ns : list Z.
Variable P : list nat.
Variable pieces : list (list (list X)).
Variable g : h5grid X.
Hypothesis OK : split_ok ns P pieces.
Hypothesis SG : set_grid pieces = Some g.

Lemma g_eq : r_region g = map (fun l => region_of (map zlen l)) pieces /\ r_size g = ns /\
  r_coords g = map (fun l => concat l) pieces.
Proof.
  destruct OK as (A & B & C & D & E). unfold set_grid in SG. destruct (_ && _); [|discriminate]. inversion SG; subst g.
  cbn [r_region r_size r_coords]. split; [reflexivity|]. split; [|reflexivity].
  apply (regions_eq ns P pieces A B C D E (cart_coords P 0)). now apply cart_lt.
Qed.
Lemma slice_eq r : exists reg, get_region ns P (cart_coords P r) = Some reg /\
  get_slice g P r = (rev reg, rev (map (fun s => snd s - fst s) reg)) /\ length reg = length ns.
Proof.
  destruct OK as (A & B & C & D & E).
  destruct (regions_eq ns P pieces A B C D E (cart_coords P r) (cart_lt P B r)) as [R _].
  eexists. split; [exact R|]. unfold get_slice. rewrite (proj1 g_eq). split; [reflexivity|].
  rewrite map2_length by (rewrite map_length, cart_length; congruence). rewrite map_length. congruence.
Qed.
Lemma shape_reg r reg : get_region ns P (cart_coords P r) = Some reg -> length reg = length ns.
Proof. intros H. destruct (slice_eq r) as (reg' & R & _ & L). congruence. Qed.
(* the owner of a cell *)
Lemma owner x : in_shape x ns -> exists r reg, (r < nprod P)%nat /\ get_region ns P (cart_coords P r) = Some reg /\
  in_region x reg /\ forall s reg', (s < nprod P)%nat -> get_region ns P (cart_coords P s) = Some reg' -> in_region x reg' -> s = r.
Proof.
  intros Hx. destruct OK as (A & B & C & D & E).
  destruct (C09_all ns P C A B x Hx) as (c & (reg & R & I) & U).
  assert (HC : Forall2 (fun k p => (k < p)%nat) c P).
  { clear -R B. revert ns reg R. induction B as [|p P Hp HP IH] in c |- *; intros [|n ns] reg R; destruct c as [|k c]; try discriminate; constructor.
    - cbn in R. destruct (region1 n p k) eqn:E1; [|discriminate].
      destruct (le_lt_dec p k) as [F|F]; [|exact F]. rewrite region1_none in E1 by exact F. discriminate.
    - cbn in R. destruct (region1 n p k); [|discriminate]. destruct (get_region ns P c) eqn:E2; [|discriminate]. eapply IH; eauto. }
  destruct (cart_surj P B c HC) as (r & Hr & E1). exists r, reg. rewrite E1. repeat split; auto.
  intros s reg' Hs R' I'. apply (cart_inj P B); auto. rewrite E1. symmetry. apply U. eauto.
Qed.
Lemma in_rev x reg : in_region x reg <-> in_slices (rev reg) (rev x) = true.
Proof. unfold in_region. rewrite in_slices_iff, Forall2_rev_iff. apply Forall2_swap. Qed.

(* the block written for rank r *)
Definition blk (f : nat -> data V) (m : nat -> list V) (r : nat) : list Z -> V :=
  if Nat.eqb r 0 then transpose (f 0%nat) else received unknown (snd (get_slice g P r)) (m r).
Lemma set_dset_eq d f mail k b : set_dset unknown g P d (f 0%nat) mail k b =
  fold_left (fun d r => write (fst (get_slice g P r)) (if b then [Z.of_nat k] else []) (blk f (fun r => recv (mail r) k) r) d)
    (seq 0 (nprod P)) d.
Proof.
  destruct OK as (_ & B & _). assert (N := nprod_pos P B). unfold set_dset. cbv zeta.
  replace (seq 0 (nprod P)) with (0%nat :: seq 1 (nprod P - 1)).
  2:{ replace (nprod P) with (S (nprod P - 1)) at 2 by lia. reflexivity. }
  cbn [fold_left]. unfold blk at 2. cbn [Nat.eqb].
  assert (G : forall l d0, (forall r, In r l -> r <> 0%nat) ->
    fold_left (fun d i => let (ind, buffer_size) := get_slice g P i in
        write ind (if b then [Z.of_nat k] else []) (received unknown buffer_size (recv (mail i) k)) d) l d0 =
    fold_left (fun d r => write (fst (get_slice g P r)) (if b then [Z.of_nat k] else []) (blk f (fun r => recv (mail r) k) r) d) l d0).
  { induction l as [|r l IH]; intros d0 H; [reflexivity|]. cbn [fold_left]. rewrite IH by (intros; apply H; now right).
    f_equal. unfold blk. rewrite (proj2 (Nat.eqb_neq r 0)) by (apply H; now left). now destruct (get_slice g P r). }
  apply G. intros r Hr. apply in_seq in Hr. lia.
Qed.
Lemma blk_value (F : list Z -> V) f m r reg x : part_of ns P F r (f r) -> m r = message (f r) ->
  get_region ns P (cart_coords P r) = Some reg -> in_region x reg ->
  blk f m r (map2 Z.sub (rev x) (map fst (rev reg))) = F x.
Proof.
  intros (reg' & R & S & E) M R' I. rewrite R in R'. inversion R'; subst reg'. clear R'.
  assert (L : length x = length reg) by (eapply Forall2_length; eauto).
  rewrite map_rev, map2_rev by (rewrite map_length; auto).
  set (j := map2 Z.sub x (map fst reg)).
  assert (J : in_shape j (t_shape (f r)) /\ map2 Z.add (map fst reg) j = x).
  { rewrite S. unfold j. clear -I. induction I as [|y s x reg Hy I [IH1 IH2]]; cbn; [split; [constructor|reflexivity]|].
    split; [constructor; [lia|exact IH1]|]. unfold map2 in *. cbn. f_equal; [lia|exact IH2]. }
  destruct J as [J1 J2]. unfold blk. destruct (Nat.eqb r 0) eqn:Z0.
  - apply Nat.eqb_eq in Z0. subst r. unfold transpose. rewrite rev_involutive. rewrite E by auto. now rewrite J2.
  - rewrite M. destruct (slice_eq r) as (reg' & R' & -> & _). rewrite R in R'. inversion R'; subst reg'. cbn [snd].
    rewrite <- S. rewrite received_message.
    + rewrite rev_involutive. rewrite E by auto. now rewrite J2.
    + clear -J1. induction J1; constructor; auto. lia.
    + now apply Forall2_rev'.
Qed.
Lemma set_dset_value (F : list Z -> V) d f mail k b x :
  (forall r, (r < nprod P)%nat -> part_of ns P F r (f r)) ->
  (forall r, (r < nprod P)%nat -> recv (mail r) k = message (f r)) -> in_shape x ns ->
  d_val (set_dset unknown g P d (f 0%nat) mail k b) (rev x ++ (if b then [Z.of_nat k] else [])) = F x.
Proof.
  intros HF HM Hx. rewrite set_dset_eq.
  destruct (owner x Hx) as (r & reg & Hr & R & I & U).
  assert (LX : length x = length ns) by (eapply Forall2_length; eauto).
  rewrite (writes_hit (fun r => fst (get_slice g P r)) _ (blk f (fun r => recv (mail r) k)) (rev x) _ r).
  - destruct (slice_eq r) as (reg' & R' & E & _). rewrite R in R'. inversion R'; subst reg'. rewrite E. cbn [fst].
    apply blk_value; auto.
  - apply in_seq. lia.
  - intros s _. destruct (slice_eq s) as (reg' & _ & -> & L). cbn [fst]. rewrite !rev_length. congruence.
  - destruct (slice_eq r) as (reg' & R' & E & _). rewrite R in R'. inversion R'; subst reg'. rewrite E. cbn [fst]. now apply in_rev.
  - intros s Hs HI. apply in_seq in Hs. destruct (slice_eq s) as (reg' & R' & E & _). rewrite E in HI. cbn [fst] in HI.
    apply in_rev in HI. eapply U; eauto. lia.
Qed.
Lemma set_dset_skip d f mail k i : length i = length ns -> forall k', k' <> Z.of_nat k ->
  d_val (set_dset unknown g P d (f 0%nat) mail k true) (i ++ [k']) = d_val d (i ++ [k']).
Proof.
  intros L k' N. rewrite set_dset_eq. apply writes_skip. intros r _. destruct (slice_eq r) as (reg & _ & -> & LR). cbn [fst].
  rewrite rev_length, LR, <- L. rewrite skipn_app, skipn_all, Nat.sub_diag. cbn [skipn app].
  destruct (list_eqb [k'] [Z.of_nat k]) eqn:E; [|apply andb_false_r]. apply list_eqb_spec in E. congruence.
Qed.
Lemma set_dset_shape d f mail k b : d_shape (set_dset unknown g P d (f 0%nat) mail k b) = d_shape d.
Proof. rewrite set_dset_eq. apply writes_shape. Qed.
End H5.

(* Each process writes its own cells and each cell is written by one process. *)
Theorem C35_scalar X V (zero unknown : V) ns P (pieces : list (list (list X))) g F f :
  split_ok ns P pieces -> set_grid pieces = Some g ->
  (forall r, (r < nprod P)%nat -> part_of ns P F r (f r)) ->
  let d := add_scalar zero unknown g P f in
  d_shape d = rev ns /\ forall x, in_shape x ns -> d_val d (rev x) = F x.
Proof.
  intros OK SG HF d. split.
  - unfold d, add_scalar. rewrite (set_dset_shape unknown ns P pieces g OK). cbn [create d_shape].
    now rewrite (proj1 (proj2 (g_eq ns P pieces g OK SG))).
  - intros x Hx. pose proof (set_dset_value unknown ns P pieces g OK SG F (create zero (rev (r_size g))) f
      (fun r => [(0%nat, message (f r))]) 0 false x HF) as E. cbn [app] in E. rewrite app_nil_r in E. apply E; auto.
Qed.
Lemma recv_combine {V} (l : list (list V)) : forall s k, (k < length l)%nat ->
  recv (combine (seq s (length l)) l) (s + k) = nth k l [].
Proof.
  induction l as [|m l IH]; intros s k H; cbn in H; [lia|]. cbn [length seq combine]. unfold recv. cbn [find fst].
  destruct k as [|k].
  - rewrite Nat.add_0_r, Nat.eqb_refl. reflexivity.
  - rewrite (proj2 (Nat.eqb_neq s (s + S k))) by lia. fold (recv (combine (seq (S s) (length l)) l) (s + S k)).
    replace (s + S k)%nat with (S s + k)%nat by lia. now apply IH; lia.
Qed.
(* Vector fields: n components, F k is the component k. *)
Theorem C35_vector X V (zero unknown : V) ns P (pieces : list (list (list X))) g n F datas d0 :
  split_ok ns P pieces -> set_grid pieces = Some g ->
  (forall r, (r < nprod P)%nat -> length (datas r) = n) ->
  (forall r k, (r < nprod P)%nat -> (k < n)%nat -> part_of ns P (F k) r (nth k (datas r) d0)) ->
  let d := add_vector zero unknown g P datas in
  d_shape d = rev ns ++ [3] /\
  (forall x k, in_shape x ns -> (k < n)%nat -> d_val d (rev x ++ [Z.of_nat k]) = F k x) /\
  (forall x k, in_shape x ns -> (n <= k)%nat -> d_val d (rev x ++ [Z.of_nat k]) = zero).
Proof.
  intros OK SG HN HF d.
  assert (NP : (0 < nprod P)%nat) by (destruct OK as (_ & B & _); pose proof (nprod_pos P B); lia).
  set (mail := fun r => combine (seq 0 (length (datas r))) (map message (datas r))).
  assert (HM : forall r k, (r < nprod P)%nat -> (k < n)%nat -> recv (mail r) k = message (nth k (datas r) d0)).
  { intros r k Hr Hk. unfold mail. rewrite <- (map_length message (datas r)). change k with (0 + k)%nat.
    rewrite recv_combine by (rewrite map_length, HN; auto). cbn [plus].
    rewrite (nth_indep _ [] (message d0)) by (rewrite map_length, HN; auto). apply map_nth. }
  assert (G : forall m s dd, (forall k, (k < m)%nat -> (s + k < n)%nat) ->
    let res := fold_left (fun d p => set_dset unknown g P d (snd p) mail (fst p) true)
                 (combine (seq s m) (map (fun k => nth (s + k) (datas 0%nat) d0) (seq 0 m))) dd in
    d_shape res = d_shape dd /\
    forall x k, in_shape x ns ->
      (((s <= k)%nat /\ (k < s + m)%nat) -> d_val res (rev x ++ [Z.of_nat k]) = F k x) /\
      (~ ((s <= k)%nat /\ (k < s + m)%nat) -> d_val res (rev x ++ [Z.of_nat k]) = d_val dd (rev x ++ [Z.of_nat k]))).
  { induction m as [|m IH]; intros s dd Hs.
    - cbn. split; auto. intros; split; [lia|auto].
    - cbn [seq map combine fold_left fst snd]. rewrite Nat.add_0_r.
      rewrite <- (seq_shift m 0), map_map.
      rewrite (map_ext (fun x => nth (s + S x) (datas 0%nat) d0) (fun x => nth (S s + x) (datas 0%nat) d0)) by (intros; f_equal; lia).
      destruct (IH (S s) (set_dset unknown g P dd (nth s (datas 0%nat) d0) mail s true)) as [S1 S2].
      { intros k Hk. specialize (Hs (S k) ltac:(lia)). lia. }
      assert (SN : (s < n)%nat) by (specialize (Hs 0%nat ltac:(lia)); lia).
      cbv zeta. rewrite S1. split.
      + apply (set_dset_shape unknown ns P pieces g OK dd (fun r => nth s (datas r) d0)).
      + intros x k Hx. destruct (S2 x k Hx) as [A B].
        assert (LX : length (rev x) = length ns) by (rewrite rev_length; eapply Forall2_length; eauto).
        destruct (Nat.eq_dec k s) as [->|NE].
        * split; [|lia]. intros _. rewrite B by lia.
          apply (set_dset_value unknown ns P pieces g OK SG (F s) dd (fun r => nth s (datas r) d0) mail s true x); auto.
        * split; [intros; apply A; lia|]. intros H. rewrite B by lia.
          apply (set_dset_skip unknown ns P pieces g OK SG dd (fun r => nth s (datas r) d0) mail s (rev x) LX). lia. }
  assert (ED : datas 0%nat = map (fun k => nth (0 + k) (datas 0%nat) d0) (seq 0 n)).
  { apply (nth_ext _ _ d0 d0); [rewrite map_length, seq_length; auto|]. intros i Hi. rewrite HN in Hi by auto.
    rewrite (nth_indep (map _ _) d0 (nth (0 + 0) (datas 0%nat) d0)) by (rewrite map_length, seq_length; auto).
    rewrite (map_nth (fun k => nth (0 + k) (datas 0%nat) d0)). rewrite seq_nth by auto. reflexivity. }
  destruct (G n 0%nat (create zero (rev (r_size g) ++ [3])) ltac:(intros; lia)) as [G1 G2].
  assert (DE : d = fold_left (fun d p => set_dset unknown g P d (snd p) mail (fst p) true)
                 (combine (seq 0 n) (map (fun k => nth (0 + k) (datas 0%nat) d0) (seq 0 n))) (create zero (rev (r_size g) ++ [3]))).
  { unfold d, add_vector. fold mail. rewrite HN by auto. now rewrite <- ED. }
  rewrite DE. split; [|split].
  - rewrite G1. cbn [create d_shape]. now rewrite (proj1 (proj2 (g_eq ns P pieces g OK SG))).
  - intros x k Hx Hk. apply (G2 x k Hx). lia.
  - intros x k Hx Hk. destruct (G2 x k Hx) as [_ B]. rewrite B by lia. reflexivity.
Qed.
Theorem C35_one_writer X ns P (pieces : list (list (list X))) g : split_ok ns P pieces -> set_grid pieces = Some g ->
  forall x, in_shape x ns -> exists! r, (r < nprod P)%nat /\ in_slices (fst (get_slice g P r)) (rev x) = true.
Proof.
  intros OK SG x Hx. destruct (owner ns P pieces OK x Hx) as (r & reg & Hr & R & I & U). exists r. split.
  - split; auto. destruct (slice_eq ns P pieces g OK SG r) as (reg' & R' & -> & _). cbn [fst]. apply in_rev. congruence.
  - intros s [Hs E]. destruct (slice_eq ns P pieces g OK SG s) as (reg' & R' & E' & _). rewrite E' in E. cbn [fst] in E.
    symmetry. eapply U; eauto. now apply in_rev.
Qed.
(* The coordinates: entry k of x_d is the centre of the global cell k. *)
Theorem C35_coordinates ns P lo dx h pieces g : split_ok ns P pieces -> set_grid pieces = Some g -> 1 <= h ->
  (forall d c r0 r1, (d < length P)%nat -> (c < nth d P 0%nat)%nat -> region1 (nth d ns 0) (nth d P 0%nat) c = Some (r0, r1) ->
     nth c (nth d pieces []) [] = coords1 (nth d lo 0%Q) dx r0 r1 h) ->
  forall d k, (d < length P)%nat -> 0 <= k < nth d ns 0 ->
  exists x, nth_error (nth d (r_coords g) []) (Z.to_nat k) = Some x /\ (x == nth d lo 0 + dx * (inject_Z k + (1 # 2)))%Q.
Proof.
  intros OK SG Hh HC d k Hd Hk. rewrite (proj2 (proj2 (g_eq ns P pieces g OK SG))). destruct OK as (A & B & C & D & E).
  rewrite (nth_indep _ [] (concat [])) by (rewrite map_length; congruence). rewrite (map_nth (fun l => concat l)).
  specialize (E d Hd). specialize (HC d). set (n := nth d ns 0) in *. set (p := nth d P 0%nat) in *. set (l := nth d pieces []) in *.
  assert (Hp : (1 <= p)%nat) by (apply (proj1 (Forall_forall _ _) B); apply nth_In; auto).
  assert (Hn : 0 <= n) by lia.
  destruct (owner_exists n (Z.of_nat p) k ltac:(lia) Hk) as (c & Hc & Hb).
  destruct E as [LL E].
  assert (RN := region_nth n p l Hn Hp (conj LL E)).
  assert (NC : forall (l : list (list Q)) j i, (j < length l)%nat -> (i < length (nth j l []))%nat ->
     nth_error (concat l) (length (concat (firstn j l)) + i) = nth_error (nth j l []) i).
  { clear. induction l as [|m l IH]; intros j i H1 H2; cbn in H1; [lia|]. destruct j as [|j]; cbn [firstn concat nth app length] in *.
    - rewrite nth_error_app1 by lia. reflexivity.
    - rewrite app_length. rewrite nth_error_app2 by lia. replace (length m + length (concat (firstn j l)) + i - length m)%nat
        with (length (concat (firstn j l)) + i)%nat by lia. apply IH; auto; lia. }
  assert (LC : forall (l : list (list Q)), Z.of_nat (length (concat l)) = fold_right Z.add 0 (map zlen l)).
  { clear. induction l as [|m l IH]; cbn; [reflexivity|]. rewrite app_length. unfold zlen at 1. lia. }
  set (cn := Z.to_nat c) in *. assert (HCN : (cn < p)%nat) by lia.
  destruct (RN cn ltac:(lia)) as [_ R0]. rewrite firstn_map, <- LC in R0. replace (Z.of_nat cn) with c in R0 by lia.
  assert (R1 : region1 n p cn = Some (bound n (Z.of_nat p) c, bound n (Z.of_nat p) (c + 1))).
  { rewrite region1_eq by lia. unfold cn. rewrite Z2Nat.id by lia. reflexivity. }
  specialize (HC cn _ _ Hd HCN R1).
  destruct (C10_inner (nth d lo 0%Q) dx (bound n (Z.of_nat p) c) (bound n (Z.of_nat p) (c + 1)) h Hh ltac:(lia)) as [CL CN].
  destruct (CN k Hb) as (x & X1 & X2). exists x. split; [|exact X2].
  replace (Z.to_nat k) with (length (concat (firstn cn l)) + Z.to_nat (k - bound n (Z.of_nat p) c))%nat by lia.
  rewrite NC; [now rewrite HC|lia|]. rewrite HC. lia.
Qed.

(* When does set_grid work: the directions are split evenly in pieces of two cells at least. *)
Theorem C35_grid_iff X ns P (pieces : list (list (list X))) : split_ok ns P pieces ->
  ((exists g, set_grid pieces = Some g) <->
   forall d, (d < length P)%nat -> nth d ns 0 mod Z.of_nat (nth d P 0%nat) = 0 /\ 2 <= nth d ns 0 / Z.of_nat (nth d P 0%nat)).
Proof.
  intros (A & B & C & D & E).
  assert (ONE : forall d, (d < length P)%nat ->
    (forallb (fun c => 2 <=? zlen c) (nth d pieces []) && homogeneous (nth d pieces []) = true <->
     nth d ns 0 mod Z.of_nat (nth d P 0%nat) = 0 /\ 2 <= nth d ns 0 / Z.of_nat (nth d P 0%nat))).
  { intros d Hd. specialize (E d Hd). assert (Hp : (1 <= nth d P 0)%nat) by (apply (proj1 (Forall_forall _ _) B); apply nth_In; auto).
    assert (Hn : 0 <= nth d ns 0) by (apply (proj1 (Forall_forall _ _) A); apply nth_In; lia).
    revert E Hp Hn. generalize (nth d ns 0) (nth d P 0%nat) (nth d pieces []). clear. intros n p l [L E] Hp Hn.
    assert (SZ : forall c, (c < p)%nat -> zlen (nth c l []) = n / Z.of_nat p + (if Z.of_nat c <? n mod Z.of_nat p then 1 else 0)).
    { intros c Hc. destruct (E c Hc) as (a & b & R & ->). rewrite region1_eq in R by lia. inversion R; subst.
      rewrite bound_step by lia. lia. }
    assert (MB : 0 <= n mod Z.of_nat p < Z.of_nat p) by (apply Z.mod_pos_bound; lia).
    rewrite andb_true_iff, forallb_forall. split.
    - intros [H1 H2]. destruct l as [|c0 l]; [cbn in L; lia|]. cbn [homogeneous] in H2. rewrite forallb_forall in H2.
      assert (S0 := SZ 0%nat ltac:(lia)). assert (SL := SZ (p - 1)%nat ltac:(lia)). cbn [nth] in S0.
      assert (SE : zlen (nth (p - 1) (c0 :: l) []) = zlen c0).
      { destruct (p - 1)%nat as [|q] eqn:Q; [reflexivity|]. cbn [nth]. apply Z.eqb_eq. apply H2. apply nth_In. cbn in L. lia. }
      assert (TW : 2 <= zlen (nth (p - 1) (c0 :: l) [])) by (apply Z.leb_le, H1, nth_In; lia).
      destruct (Z.of_nat 0 <? n mod Z.of_nat p) eqn:F1; destruct (Z.of_nat (p - 1) <? n mod Z.of_nat p) eqn:F2; lia.
    - intros [H1 H2].
      assert (ALL : forall c, In c l -> zlen c = n / Z.of_nat p).
      { intros c Hc. apply (In_nth _ _ []) in Hc as (i & Hi & <-). rewrite SZ by lia. rewrite H1.
        replace (Z.of_nat i <? 0) with false by lia. lia. }
      split; [intros c Hc; rewrite (ALL c Hc); apply Z.leb_le; lia|]. destruct l as [|c0 l]; [reflexivity|].
      cbn [homogeneous]. rewrite forallb_forall. intros c Hc. rewrite (ALL c) by now right. rewrite (ALL c0) by now left. apply Z.eqb_refl. }
  unfold set_grid. split.
  - intros [g H] d Hd. apply ONE; auto. destruct (_ && _) eqn:Q; [|discriminate]. apply andb_prop in Q as [Q1 Q2].
    rewrite forallb_forall in Q1, Q2. rewrite Q1, Q2 by (apply nth_In; lia). reflexivity.
  - intros H.
    assert (Q : forallb (forallb (fun c => 2 <=? zlen c)) pieces && forallb homogeneous pieces = true).
    { apply andb_true_iff. rewrite !forallb_forall.
      split; intros l Hl; apply (In_nth _ _ []) in Hl as (i & Hi & <-); rewrite D in Hi; specialize (H i Hi); apply ONE in H; auto;
        apply andb_prop in H; apply H. }
    rewrite Q. eauto.
Qed.
(* So an uneven split raises an exception: 3 cells on 2 processes. *)
Theorem C35_uneven_refuted : exists (ns : list Z) (P : list nat) (pieces : list (list (list Q))),
  split_ok ns P pieces /\ Forall (fun l => Forall (fun c => (2 <= length c)%nat) l) pieces /\ set_grid pieces = None.
Proof.
  exists [5], [2%nat], [[[0; 1; 2]; [3; 4]]%Q]. split; [|split; [|reflexivity]].
  - split; [constructor; [lia|constructor]|]. split; [constructor; [lia|constructor]|]. split; [reflexivity|]. split; [reflexivity|].
    intros [|d] Hd; [|cbn in Hd; lia]. cbn [nth]. split; [reflexivity|]. intros [|[|c]] Hc; [| |lia]; cbn; eexists; eexists; split; reflexivity.
  - repeat constructor.
Qed.
Example C35_ex :
  let pieces := [[[0; 1]; [2; 3]]; [[0; 1; 2]]]%Q in
  split_ok [4; 3] [2%nat; 1%nat] pieces /\
  exists g, set_grid pieces = Some g /\ r_size g = [4; 3] /\
    get_slice g [2%nat; 1%nat] 1 = ([(0, 3); (2, 4)], [3; 2]) /\
    let f r := mkData [2; 3] (fun i => 10 * (2 * Z.of_nat r + nth 0 i 0) + nth 1 i 0) in
    let d := add_scalar 0 (-1) g [2%nat; 1%nat] f in
    d_shape d = [3; 4] /\ map (fun y => map (fun x => d_val d [y; x]) [0; 1; 2; 3]) [0; 1; 2] =
      [[0; 10; 20; 30]; [1; 11; 21; 31]; [2; 12; 22; 32]].
Proof.
  cbv zeta. split.
  - split; [repeat constructor; lia|]. split; [repeat constructor; lia|]. split; [reflexivity|]. split; [reflexivity|].
    intros [|[|d]] Hd; [| |cbn in Hd; lia]; cbn [nth]; (split; [reflexivity|]); intros [|[|c]] Hc; try lia;
      cbn; eexists; eexists; split; reflexivity.
  - eexists. split; [reflexivity|]. vm_compute. auto.
Qed.

(* ---- C36 ---- *)
(* What an XDMF reader expects for a rectilinear mesh of dimension 2 or 3: as many
   coordinate arrays as the topology has dimensions, sizes of the slowest index first. *)
Definition topology_dim (t : topology) : nat := match t with Mesh2D => 2%nat | Mesh3D => 3%nat end.
Theorem C36_coordinates_scalars X V (zero unknown : V) ns P (pieces : list (list (list X))) g f :
  split_ok ns P pieces -> set_grid pieces = Some g ->
  (forall d, (d < length P)%nat ->
     nth d (x_geometry (save (r_size g))) [] = [Z.of_nat (length (nth d (r_coords g) []))]) /\
  x_scalar (save (r_size g)) = d_shape (add_scalar zero unknown g P f).
Proof.
  intros OK SG. destruct (g_eq ns P pieces g OK SG) as (E1 & E2 & E3). split.
  - intros d Hd. assert (Ep := OK). destruct Ep as (A & B & C & D & E).
    unfold save. cbn [x_geometry]. rewrite (nth_indep _ [] [0]) by (rewrite map_length, E2; lia).
    rewrite (map_nth (fun n => [n])). f_equal. rewrite E3.
    rewrite (nth_indep _ [] (concat [])) by (rewrite map_length; lia). rewrite (map_nth (fun l => concat l)).
    unfold set_grid in SG. destruct (_ && _); [|discriminate]. inversion SG; subst g. cbn [r_size] in *.
    change 0 with (fold_right Z.add 0 (map (@zlen X) [])). rewrite (map_nth (fun l => fold_right Z.add 0 (map zlen l))).
    generalize (nth d pieces []). clear. induction l as [|m l IH]; cbn; [reflexivity|]. rewrite app_length. unfold zlen at 1. lia.
  - unfold add_scalar. rewrite (set_dset_shape unknown ns P pieces g OK). reflexivity.
Qed.
Theorem C36_vector_iff X V (zero unknown : V) ns P (pieces : list (list (list X))) g datas :
  split_ok ns P pieces -> set_grid pieces = Some g ->
  (x_vector (save (r_size g)) = d_shape (add_vector zero unknown g P datas) <-> length P = 3%nat).
Proof.
  intros OK SG. destruct (g_eq ns P pieces g OK SG) as (E1 & E2 & E3).
  assert (SH : d_shape (add_vector zero unknown g P datas) = rev ns ++ [3]).
  { unfold add_vector. set (mail := fun r : nat => combine _ _). set (l := combine _ _).
    assert (G : forall l dd, d_shape (fold_left (fun d p => set_dset unknown g P d (snd p) mail (fst p) true) l dd) = d_shape dd).
    { clear l. induction l as [|[k f] l IH]; intros dd; [reflexivity|]. cbn [fold_left fst snd]. rewrite IH.
      apply (set_dset_shape unknown ns P pieces g OK dd (fun _ => f)). }
    rewrite G. cbn [create d_shape]. congruence. }
  rewrite SH. unfold save. cbn [x_vector]. rewrite E2. destruct OK as (_ & _ & L & _ & _). split.
  - intros H. apply app_inv_head in H. inversion H. lia.
  - intros H. repeat f_equal. lia.
Qed.
Theorem C36_vector_refuted X V (zero unknown : V) ns P (pieces : list (list (list X))) g datas :
  split_ok ns P pieces -> set_grid pieces = Some g -> length P = 2%nat ->
  x_vector (save (r_size g)) <> d_shape (add_vector zero unknown g P datas).
Proof. intros OK SG H E. apply (C36_vector_iff X V zero unknown ns P pieces g datas OK SG) in E. lia. Qed.
(* The topology has the dimension of the grid exactly in two and three dimensions: a grid
   of dimension one is announced as a three dimensional mesh with one coordinate array. *)
Theorem C36_topology_iff ns : (1 <= length ns <= 3)%nat ->
  (topology_dim (x_topology (save ns)) = length (x_geometry (save ns)) <-> length ns <> 1%nat).
Proof.
  intros H. unfold save. cbn [x_topology x_geometry]. rewrite map_length.
  destruct (Nat.eqb (length ns) 2) eqn:E; cbn [topology_dim].
  - apply Nat.eqb_eq in E. lia.
  - apply Nat.eqb_neq in E. lia.
Qed.
Theorem C36_topology_refuted : exists ns, length ns = 1%nat /\
  topology_dim (x_topology (save ns)) = 3%nat /\ length (x_geometry (save ns)) = 1%nat.
Proof. exists [10]. auto. Qed.
(* The sizes of the topology are given in the order x y z, those of the fields in the
   order z y x: the two agree only if the sizes are symmetric. *)
Theorem C36_elements_iff X V (zero unknown : V) ns P (pieces : list (list (list X))) g f :
  split_ok ns P pieces -> set_grid pieces = Some g ->
  (x_elements (save (r_size g)) = d_shape (add_scalar zero unknown g P f) <-> ns = rev ns).
Proof.
  intros OK SG. rewrite <- (proj2 (C36_coordinates_scalars X V zero unknown ns P pieces g f OK SG)).
  rewrite (proj1 (proj2 (g_eq ns P pieces g OK SG))). reflexivity.
Qed.
Theorem C36_elements_refuted : exists ns, length ns = 2%nat /\ x_elements (save ns) <> x_scalar (save ns).
Proof. exists [4; 3]. split; [reflexivity|]. cbn. discriminate. Qed.
Example C36_ex : save [4; 3] = mkXdmf Mesh2D [4; 3] [[4]; [3]] [3; 4] [3; 4; 2].
Proof. reflexivity. Qed.

Print Assumptions C35_scalar. Print Assumptions C35_vector. Print Assumptions C35_one_writer.
Print Assumptions C35_coordinates. Print Assumptions C35_grid_iff. Print Assumptions C35_uneven_refuted.
Print Assumptions C36_coordinates_scalars. Print Assumptions C36_vector_iff. Print Assumptions C36_vector_refuted.
Print Assumptions C36_topology_iff. Print Assumptions C36_topology_refuted.
Print Assumptions C36_elements_iff. Print Assumptions C36_elements_refuted.
