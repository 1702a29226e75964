(* C77: the kernels update_x, update_y, update_z of the loo.py back end. *)
From Coq Require Import Sorting.Permutation.
From Verif Require Import PyBase VelocityModel GridModel GridProofs StorageModel StencilProofs StorageProofs ExchangeProofs LinAlg GlobalModel GlobalProofs GenModel GenProofs StepGenModel LoopyModel LoopyProofs.
Require Import Lia.
Open Scope Z_scope.

Lemma upd_upd {A} (l : list A) i x y : upd (upd l i x) i y = upd l i y.
Proof. revert i. induction l as [|a l IH]; intros [|i]; cbn; [reflexivity..|]. now rewrite IH. Qed.
Lemma upd_self {A} (l : list A) i z : upd l i (nth i l z) = l.
Proof. revert i. induction l as [|a l IH]; intros [|i]; cbn; [reflexivity..|]. now rewrite IH. Qed.

Lemma map2_cons {A B C} (f : A -> B -> C) a l b m : map2 f (a :: l) (b :: m) = f a b :: map2 f l m.
Proof. reflexivity. Qed.

Section Ghost.
Variable V : Type.
Variables (sorder : list nat) (nv : Z) (sizes : list Z).
Notation dim := (length sizes).
Hypothesis HO : is_order sorder (S dim).
(* the place of the component s of the cell y in the array *)
Definition place (s : Z) (y : list Z) : list Z := scatter 0 sorder (s :: y).
Definition in_grid (y : list Z) : Prop := Forall2 (fun n i => 0 <= i < n) sizes y.
Definition stored_place (p : list Z) : Prop := exists s y, 0 <= s < nv /\ in_grid y /\ p = place s y.

Lemma grid_length y : in_grid y -> length y = dim.
Proof using. intros H. symmetry. apply (Forall2_length _ _ _ H). Qed.
Lemma grid_nth y : in_grid y <-> length y = dim /\ forall d, (d < dim)%nat -> 0 <= nth d y 0 < nth d sizes 0.
Proof using.
  clear. unfold in_grid. revert y. induction sizes as [|n l IH]; intros [|i y]; cbn.
  - split; [intros _; split; [reflexivity|lia]|constructor].
  - split; [intros H; inversion H|intros [H _]; discriminate].
  - split; [intros H; inversion H|intros [H _]; discriminate].
  - split.
    + intros H. inversion H as [|? ? ? ? H1 H2]; subst. apply IH in H2 as [L H2]. split; [now rewrite L|]. intros [|d] Hd; [exact H1|]. apply H2. lia.
    + intros [L H]. constructor; [apply (H 0%nat); lia|]. apply IH. split; [lia|]. intros d Hd. apply (H (S d)). lia.
Qed.
Lemma grid_upd y d z : in_grid y -> 0 <= z < nth d sizes 0 -> in_grid (upd y d z).
Proof using.
  intros H Hz. apply grid_nth in H as [L H]. apply grid_nth. rewrite upd_length. split; [exact L|]. intros j Hj.
  destruct (Nat.lt_ge_cases d dim) as [Hd|Hd].
  - rewrite nth_upd by lia. destruct (Nat.eqb_spec j d) as [->|_]; [exact Hz|now apply H].
  - rewrite nth_overflow in Hz by exact Hd. lia.
Qed.
Lemma place_inj s y s' y' : length y = dim -> length y' = dim -> place s y = place s' y' -> s = s' /\ y = y'.
Proof using HO.
  intros L L' E. apply scatter_inj in E; [|cbn; now rewrite L|cbn; congruence]. injection E. auto.
Qed.
Lemma gaddr s y d z : length y = dim ->
  addr (s :: y) (mkAcc 0 (scatter (ICst 0) sorder (IIdx 0 0 :: map (fun j => if Nat.eqb j d then ICst z else IIdx (S j) 0) (seq 0 dim)))) = place s (upd y d z).
Proof using HO.
  intros L. unfold addr, place. cbn [a_idx]. rewrite map_scatter by (cbn; now rewrite map_length, seq_length). cbn [ix_at map nth]. rewrite Z.add_0_r. f_equal. f_equal.
  rewrite map_map. rewrite <- L. clear. assert (H : forall (l : list Z) a, map (fun x => nth (S x) (a :: l) 0 + 0) (seq 0 (length l)) = l).
  { induction l as [|b l IH]; intros a; [reflexivity|]. cbn [length seq map nth]. f_equal; [lia|]. rewrite <- seq_shift, map_map. exact (IH b). }
  revert d s. induction y as [|i y IH]; intros d s; [reflexivity|]. cbn [length seq map]. rewrite <- seq_shift, map_map. destruct d as [|d]; cbn [upd Nat.eqb].
  - f_equal. exact (H y s).
  - f_equal; [cbn; lia|]. rewrite <- (IH d s). apply map_ext. intros j. destruct (Nat.eqb j d); reflexivity.
Qed.
Lemma gcell_in d x : (d < dim)%nat -> 0 < nth d sizes 0 -> In x (gcells nv sizes d) <-> exists s y, x = s :: y /\ 0 <= s < nv /\ in_grid y /\ nth d y 0 = 0.
Proof using.
  intros Hd Hp. unfold gcells. rewrite nest_in. unfold inbox.
  assert (E : forall y, Forall2 (fun r i => fst r <= i < snd r) (map (fun n => (0, n)) (upd sizes d 1)) y <-> in_grid y /\ nth d y 0 = 0).
  { unfold in_grid. clear - Hd Hp. revert d Hd Hp. induction sizes as [|n l IH]; intros d Hd Hp y; [cbn in Hd; lia|]. destruct d as [|d]; cbn [upd map nth] in *.
    - split.
      + intros H. inversion H as [|? i ? t H1 H2]; subst. cbn in H1. split; [constructor; [lia|]|cbn; lia].
        clear - H2. revert t H2. induction l as [|m l IHl]; intros t H2; inversion H2; subst; constructor; auto.
      + intros [H E]. inversion H as [|? i ? t H1 H2]; subst. cbn in E. constructor; [cbn; lia|]. clear - H2. induction H2; constructor; auto.
    - split.
      + intros H. inversion H as [|? i ? t H1 H2]; subst. cbn in H1. apply IH in H2 as [H2 E]; [|cbn in Hd; lia|exact Hp]. split; [constructor; assumption|exact E].
      + intros [H E]. inversion H as [|? i ? t H1 H2]; subst. cbn in E. constructor; [exact H1|]. apply IH; [cbn in Hd; lia|exact Hp|auto]. }
  split.
  - intros H. inversion H as [|? s ? y H1 H2]; subst. apply E in H2 as [H2 H3]. exists s, y. auto.
  - intros (s & y & -> & H1 & H2 & H3). constructor; [exact H1|]. apply E. auto.
Qed.

Section Axis.
Variable d : nat.
Hypothesis Hd : (d < dim)%nat.
Notation nd := (nth d sizes 0).
Hypothesis Hn : 2 <= nd.
Notation k := (gkernel (V := V) sorder dim d nd).
Notation cells := (gcells nv sizes d).
Lemma gwrites s y n p : length y = dim -> writes k (s :: y) n p <-> n = 0%nat /\ (p = place s (upd y d 0) \/ p = place s (upd y d (nd - 1))).
Proof using HO.
  intros L. unfold writes. cbn [gkernel concat app]. split.
  - intros (t & [<-|[<-|[]]] & E); cbn in E; injection E as <- E; rewrite <- E; (split; [reflexivity|]); [left|right]; now apply gaddr.
  - intros [-> [->| ->]]; eexists.
    + split; [left; reflexivity|]. cbn. f_equal. now apply gaddr.
    + split; [right; left; reflexivity|]. cbn. f_equal. now apply gaddr.
Qed.
Lemma gtouches s y n p : length y = dim -> touches k (s :: y) n p -> exists z, p = place s (upd y d z).
Proof using HO.
  intros L [H|(t & H & E)]; [apply gwrites in H; [|exact L]; destruct H as [_ [->| ->]]; eauto|]. cbn [gkernel concat app] in H.
  destruct H as [<-|[<-|[]]]; cbn in E; destruct E as [E|[]]; injection E as E1 E2; rewrite <- E2; eexists; now apply gaddr.
Qed.
Lemma same_line (y y' : list Z) z z' : length y = dim -> length y' = dim -> nth d y 0 = 0 -> nth d y' 0 = 0 -> upd y d z = upd y' d z' -> y = y'.
Proof using Hd.
  intros L L' E E' H. rewrite <- (upd_self y d 0), <- (upd_self y' d 0), E, E'. rewrite <- (upd_upd y d z 0), <- (upd_upd y' d z' 0). now rewrite H.
Qed.
Lemma upd_val_ne (y : list Z) (z z' : Z) : length y = dim -> z <> z' -> upd y d z <> upd y d z'.
Proof using Hd.
  intros L N E. apply N. assert (E' : nth d (upd y d z) 0 = nth d (upd y d z') 0) by now rewrite E. rewrite !nth_upd in E' by lia. now rewrite Nat.eqb_refl in E'.
Qed.
Lemma grace : race_free k cells.
Proof using HO Hd Hn.
  intros x x' n p Hx Hx' N W T. apply gcell_in in Hx as (s & y & -> & Hs & Hy & Ey); [|exact Hd|lia]. apply gcell_in in Hx' as (s' & y' & -> & Hs' & Hy' & Ey'); [|exact Hd|lia].
  apply grid_length in Hy, Hy'. apply gwrites in W as [-> W]; [|exact Hy]. apply gtouches in T as [z' E]; [|exact Hy'].
  assert (H : exists z, place s (upd y d z) = place s' (upd y' d z')) by (destruct W as [W|W]; rewrite E in W; eauto). destruct H as [z H].
  apply place_inj in H as [-> H]; [|now rewrite upd_length..]. apply N. f_equal. now apply (same_line y y' z z').
Qed.
Lemma gcalm x : In x cells -> Forall (calm x) k.
Proof using HO Hd Hn.
  intros Hx. apply gcell_in in Hx as (s & y & -> & Hs & Hy & Ey); [|exact Hd|lia]. apply grid_length in Hy.
  assert (Ne : forall z z', z <> z' -> DArr 0 (place s (upd y d z)) <> DArr 0 (place s (upd y d z'))).
  { intros z z' Nz E. injection E as E. apply place_inj in E as [_ E]; [|now rewrite upd_length..]. now apply (upd_val_ne y z z'). }
  constructor; [|constructor]. split.
  - cbn [map dest_of gstmt]. cbn [a_name]. rewrite !gaddr by exact Hy. constructor; [intros [E|[]]; symmetry in E; revert E; apply Ne; lia|]. constructor; [intros []|constructor].
  - intros u t [<-|[<-|[]]] [<-|[<-|[]]] Nt R; try (now destruct Nt); cbn [dest_of gstmt rhs_of reads a_name] in R; rewrite !gaddr in R by exact Hy; destruct R as [R|[]]; exfalso; revert R; apply Ne; lia.
Qed.
(* One call: along the axis d, the two layers of ghost cells are copies of the inner layers, and
   nothing else is changed. *)
Theorem C77_axis (A A' : arrays V) : result k cells A A' ->
  (forall s y, 0 <= s < nv -> in_grid y -> A' 0%nat (place s y) = A 0%nat (place s (upd y d (if nth d y 0 =? 0 then nd - 2 else if nth d y 0 =? nd - 1 then 1 else nth d y 0)))) /\
  (forall n p, n <> 0%nat \/ ~ stored_place p -> A' n p = A n p).
Proof using HO Hd Hn.
  intros R. destruct (result_at V k cells A A') as (L0 & H1 & H2); [apply nest_NoDup|exact grace|repeat constructor; discriminate|exact gcalm|exact R|]. split.
  - intros s y Hs Hy. set (x := upd y d 0). pose proof (grid_length y Hy) as Ly. assert (Lx : length x = dim) by (unfold x; now rewrite upd_length).
    assert (Hx : In (s :: x) cells) by (apply gcell_in; [exact Hd|lia|]; exists s, x; unfold x; rewrite nth_upd, Nat.eqb_refl by lia; repeat split; try lia; apply grid_upd; [exact Hy|lia]).
    assert (Fx : forall z, upd x d z = upd y d z) by (intros z; apply upd_upd).
    assert (Ne : forall z z', z <> z' -> ~ (0%nat = 0%nat /\ place s (upd y d z) = place s (upd y d z'))).
    { intros z z' Nz [_ E]. apply place_inj in E as [_ E]; [|now rewrite upd_length..]. now apply (upd_val_ne y z z'). }
    assert (St : fst (fold_left (cexec V (s :: x)) (concat k) (A, L0 (s :: x))) =
      store V (store V A 0 (place s (upd y d 0)) (A 0%nat (place s (upd y d (nd - 2))))) 0 (place s (upd y d (nd - 1))) (A 0%nat (place s (upd y d 1)))).
    { cbn [gkernel concat app fold_left]. unfold gstmt at 2. cbn [cexec fst snd ceval a_name]. rewrite !gaddr by exact Lx. rewrite !Fx.
      unfold gstmt. cbn [cexec fst snd ceval a_name]. rewrite !gaddr by exact Lx. rewrite !Fx. f_equal. apply store_other. apply Ne. lia. }
    assert (W : forall z, z = 0 \/ z = nd - 1 -> A' 0%nat (place s (upd y d z)) = fst (fold_left (cexec V (s :: x)) (concat k) (A, L0 (s :: x))) 0%nat (place s (upd y d z))).
    { intros z Hz. apply (H1 (s :: x)); [exact Hx|]. intros x' Hx' N W. refine (grace x' (s :: x) 0%nat (place s (upd y d z)) Hx' Hx N W _). left.
      apply gwrites; [exact Lx|]. rewrite !Fx. destruct Hz as [->| ->]; auto. }
    rewrite St in W. pose proof (proj1 (grid_nth y) Hy) as [_ By]. specialize (By d Hd).
    destruct (Z.eqb_spec (nth d y 0) 0) as [E0|N0]; [|destruct (Z.eqb_spec (nth d y 0) (nd - 1)) as [E1|N1]].
    + rewrite <- (upd_self y d 0) at 1. rewrite E0, W by now left. rewrite store_other by (apply Ne; lia). apply store_same.
    + rewrite <- (upd_self y d 0) at 1. rewrite E1, W by now right. apply store_same.
    + rewrite upd_self. apply H2. intros x' Hx' W'. apply gcell_in in Hx' as (s' & y' & -> & Hs' & Hy' & Ey'); [|exact Hd|lia]. apply grid_length in Hy'.
      apply gwrites in W' as [_ W']; [|exact Hy']. assert (H : exists z, (z = 0 \/ z = nd - 1) /\ place s y = place s' (upd y' d z)) by (destruct W'; eauto).
      destruct H as (z & Hz & E). apply place_inj in E as [_ E]; [|exact Ly|now rewrite upd_length]. rewrite E in N0, N1. rewrite nth_upd, Nat.eqb_refl in N0, N1 by lia. lia.
  - intros n p N. apply H2. intros x' Hx' W'. apply gcell_in in Hx' as (s' & y' & -> & Hs' & Hy' & Ey'); [|exact Hd|lia]. pose proof (grid_length y' Hy') as L'.
    apply gwrites in W' as [-> W']; [|exact L']. destruct N as [N|N]; [congruence|]. apply N. destruct W' as [->| ->]; exists s'; eexists; (split; [exact Hs'|split; [|reflexivity]]); apply grid_upd; try exact Hy'; lia.
Qed.
End Axis.

(* ---- all the axes ---- *)
Hypothesis HZ : Forall (fun n => 3 <= n) sizes.
(* the cell of the periodic domain with n - 2 cells along each axis, numbered from 1 *)
Definition periodic (y : list Z) : list Z := map2 (fun n i => (i - 1) mod (n - 2) + 1) sizes y.
Definition part (d : nat) (y : list Z) : list Z := firstn d (periodic y) ++ skipn d y.
Lemma size_ge d : (d < dim)%nat -> 3 <= nth d sizes 0.
Proof using HZ. intros H. apply (proj1 (Forall_forall _ _) HZ). now apply nth_In. Qed.
Lemma mod_ghost n i : 3 <= n -> 0 <= i < n -> (i - 1) mod (n - 2) + 1 = if i =? 0 then n - 2 else if i =? n - 1 then 1 else i.
Proof using.
  clear. intros Hn Hi. destruct (Z.eqb_spec i 0) as [->|N0]; [|destruct (Z.eqb_spec i (n - 1)) as [->|N1]].
  - rewrite <- (Z_mod_plus_full (0 - 1) 1 (n - 2)). rewrite Z.mod_small; lia.
  - replace (n - 1 - 1) with (n - 2) by lia. rewrite Z_mod_same_full. lia.
  - rewrite Z.mod_small; lia.
Qed.
Lemma part_next d y : (d < dim)%nat -> in_grid y ->
  part (S d) y = part d (upd y d (if nth d y 0 =? 0 then nth d sizes 0 - 2 else if nth d y 0 =? nth d sizes 0 - 1 then 1 else nth d y 0)).
Proof using HZ.
  intros Hd Hy. rewrite <- mod_ghost; [|now apply size_ge|apply (proj1 (grid_nth y) Hy); exact Hd]. apply grid_length in Hy. unfold part, periodic. clear - Hd Hy. revert y d Hd Hy.
  induction sizes as [|n l IH]; intros [|i y] d Hd Hy; cbn in Hd, Hy; try lia. destruct d as [|d]; cbn [upd nth]; rewrite !map2_cons; cbn [firstn skipn app]; [reflexivity|]. f_equal. apply IH; lia.
Qed.
Lemma periodic_grid y : in_grid y -> in_grid (periodic y).
Proof using HZ.
  clear HO. unfold in_grid, periodic. intros H. induction H as [|n i l y H _ IH]; cbn; [constructor|]. inversion HZ as [|? ? H1 H2]; subst. constructor; [|now apply IH].
  pose proof (Z.mod_pos_bound (i - 1) (n - 2)). lia.
Qed.
Lemma part_all y : in_grid y -> part dim y = periodic y.
Proof using.
  intros H. apply grid_length in H. unfold part. rewrite skipn_all2 by lia. rewrite app_nil_r. apply firstn_all2. unfold periodic. rewrite map2_length by congruence. lia.
Qed.
Lemma gupdate_part d (A A' : arrays V) : (d <= dim)%nat -> gupdate sorder nv sizes d A A' ->
  (forall s y, 0 <= s < nv -> in_grid y -> A' 0%nat (place s y) = A 0%nat (place s (part d y))) /\ (forall n p, n <> 0%nat \/ ~ stored_place p -> A' n p = A n p).
Proof using HO HZ.
  intros Hd G. induction G as [A|d A B C G IH R]; [split; [intros; f_equal|auto]|].
  destruct IH as [I1 I2]; [lia|]. pose proof (size_ge d Hd) as Hs. destruct (C77_axis d Hd ltac:(lia) B C R) as [J1 J2]. split.
  - intros s y Hs' Hy. rewrite (J1 s y Hs' Hy), I1; [now rewrite part_next|exact Hs'|]. apply grid_upd; [exact Hy|]. pose proof (proj2 (proj1 (grid_nth y) Hy) d Hd) as By.
    destruct (nth d y 0 =? 0); [lia|]. destruct (nth d y 0 =? nth d sizes 0 - 1); lia.
  - intros n p N. rewrite J2, I2 by exact N. reflexivity.
Qed.
(* The update: each cell of the array has the value of its image in the periodic domain. *)
Theorem C77_periodic (A A' : arrays V) : gupdate sorder nv sizes dim A A' ->
  (forall s y, 0 <= s < nv -> in_grid y -> A' 0%nat (place s y) = A 0%nat (place s (periodic y))) /\
  (forall n p, n <> 0%nat \/ ~ stored_place p -> A' n p = A n p).
Proof using HO HZ. intros G. destruct (gupdate_part dim A A' (le_n _) G) as [H1 H2]. split; [|exact H2]. intros s y Hs Hy. rewrite H1 by assumption. now rewrite part_all. Qed.
Lemma gupdate_exists d (A : arrays V) : exists A', gupdate sorder nv sizes d A A'.
Proof using.
  clear. induction d as [|d [B IH]]; [exists A; constructor|]. destruct (has_result V (gkernel sorder dim d (nth d sizes 0)) (gcells nv sizes d) B) as [C H].
  exists C. now apply (GNext V sorder nv sizes d A B C).
Qed.
Lemma one_process m h : 0 <= m -> ax_lo (mkAxis m 1 h) 0 = 0 /\ ax_hi (mkAxis m 1 h) 0 = m.
Proof using.
  clear. intros Hm. destruct (C09_axis m 1 Hm (le_n _)) as (_ & (b & E1) & (a & E2) & _). cbn [Nat.sub] in E2. rewrite E1 in E2. injection E2 as <- ->.
  unfold ax_lo, ax_hi. cbn [ax_n ax_p]. now rewrite E1.
Qed.
Definition alone : list axis := map (fun n => mkAxis (n - 2) 1 1) sizes.
Definition only : list nat := repeat 0%nat dim.
Lemma alone_nth d : (d < dim)%nat -> nth d alone dax = mkAxis (nth d sizes 0 - 2) 1 1.
Proof using. intros H. unfold alone. rewrite (nth_indep _ dax ((fun n => mkAxis (n - 2) 1 1) 0)) by (now rewrite map_length). exact (map_nth (fun n => mkAxis (n - 2) 1 1) sizes 0 d). Qed.
Lemma only_nth d : nth d only 0%nat = 0%nat.
Proof using. unfold only. destruct (Nat.lt_ge_cases d dim) as [H|H]; [now apply nth_repeat|]. apply nth_overflow. now rewrite repeat_length. Qed.
Lemma alone_length : length alone = dim.
Proof using. unfold alone. now rewrite map_length. Qed.
Lemma alone_size n : 3 <= n -> ax_lo (mkAxis (n - 2) 1 1) 0 = 0 /\ ax_size (mkAxis (n - 2) 1 1) 0 = n.
Proof using. clear. intros H. destruct (one_process (n - 2) 1) as [E1 E2]; [lia|]. unfold ax_size. rewrite E1, E2. cbn [ax_h]. lia. Qed.
Lemma alone_ok : Forall ax_ok alone.
Proof using HZ.
  unfold alone. apply Forall_map. refine (Forall_impl _ _ HZ). intros n H. split; [cbn; lia|]. split; [cbn; lia|]. split; [cbn; lia|]. intros c Hc. cbn in Hc. assert (c = 0%nat) as -> by lia.
  destruct (one_process (n - 2) 1) as [-> ->]; [lia|]. cbn. lia.
Qed.
Lemma only_ok : coords_ok alone only.
Proof using. clear. unfold coords_ok, alone, only. induction sizes; cbn; constructor; auto. Qed.
Lemma stored_grid y : stored alone only y <-> in_grid y.
Proof using HZ.
  rewrite grid_nth. unfold stored, ax_stored. rewrite alone_length. split; intros [L H]; (split; [exact L|]); intros d Hd; specialize (H d Hd); rewrite alone_nth, only_nth in * by exact Hd; pose proof (size_ge d Hd) as Hs;
    rewrite (proj2 (alone_size _ Hs)) in *; exact H.
Qed.
Lemma inner_grid y : inner alone only y <-> length y = dim /\ forall d, (d < dim)%nat -> 1 <= nth d y 0 < nth d sizes 0 - 1.
Proof using HZ.
  unfold inner, ax_inner. rewrite alone_length. split; intros [L H]; (split; [exact L|]); intros d Hd; specialize (H d Hd); rewrite alone_nth, only_nth in * by exact Hd; pose proof (size_ge d Hd) as Hs;
    rewrite (proj2 (alone_size _ Hs)) in *; exact H.
Qed.
Lemma periodic_nth y d : length y = dim -> (d < dim)%nat -> nth d (periodic y) 0 = (nth d y 0 - 1) mod (nth d sizes 0 - 2) + 1.
Proof using.
  clear. unfold periodic. revert y d. induction sizes as [|n l IH]; intros [|i y] d L Hd; cbn in L, Hd; try lia. rewrite map2_cons. destruct d as [|d]; cbn [nth]; [reflexivity|]. apply IH; lia.
Qed.
Lemma periodic_inner y : length y = dim -> inner alone only (periodic y).
Proof using HZ.
  intros L. apply inner_grid. split; [unfold periodic; rewrite map2_length; congruence|]. intros d Hd. rewrite periodic_nth by assumption. pose proof (size_ge d Hd).
  pose proof (Z.mod_pos_bound (nth d y 0 - 1) (nth d sizes 0 - 2)). lia.
Qed.
Lemma periodic_cell y : length y = dim -> same_cell alone only y only (periodic y).
Proof using HZ.
  intros L d Hd. rewrite alone_length in Hd. cbv zeta. rewrite alone_nth, only_nth by exact Hd. pose proof (size_ge d Hd) as Hs. unfold glob. rewrite (proj1 (alone_size _ Hs)). cbn [ax_h ax_n].
  rewrite periodic_nth by assumption. replace (0 - 1 + ((nth d y 0 - 1) mod (nth d sizes 0 - 2) + 1)) with ((nth d y 0 - 1) mod (nth d sizes 0 - 2)) by lia.
  rewrite Z.mod_mod by lia. f_equal. lia.
Qed.
(* It is the exchange of C12 on one process with ghost layers of width one. *)
Theorem C77_exchange (A A' : arrays V) (F : pstate (V := Z -> V)) : (dim <= 3)%nat -> gupdate sorder nv sizes dim A A' ->
  (forall s y, 0 <= s < nv -> inner alone only y -> A 0%nat (place s y) = F only y s) ->
  forall s y, 0 <= s < nv -> stored alone only y -> A' 0%nat (place s y) = update alone F only y s.
Proof using HO HZ.
  intros H3 G HA s y Hs Hy. pose proof (proj1 (stored_grid y) Hy) as Hg. pose proof (grid_length y Hg) as L. rewrite (proj1 (C77_periodic A A' G) s y Hs Hg).
  rewrite (update_spec alone ltac:(rewrite alone_length; exact H3) alone_ok F only y only (periodic y) only_ok Hy only_ok (periodic_inner y L) (periodic_cell y L)).
  apply HA; [exact Hs|]. now apply periodic_inner.
Qed.
End Ghost.
Arguments place : clear implicits. Arguments in_grid : clear implicits. Arguments periodic : clear implicits. Arguments alone : clear implicits. Arguments only : clear implicits.
Arguments stored_place : clear implicits.
Print Assumptions C77_axis.
Print Assumptions C77_periodic.
Print Assumptions C77_exchange.

(* ------------------------------------------------- what is wrong *)
(* The kernels know one width and one process.  On one axis, for the component 0 of an array
   stored with the component first: the arrays A hold F on the process 0, and all the calls of
   the kernels leave a wrong value at the cell y. *)
Definition wrong (x : axis) (F : list nat -> list Z -> Z -> Z) (y : Z) : Prop :=
  ax_ok x /\ stored [x] [0%nat] [y] /\
  forall A A', (forall z, 0 <= z < ax_size x 0 -> A 0%nat [0; z] = F [0%nat] [z] 0) ->
    gupdate [0%nat; 1%nat] 1 [ax_size x 0] 1 A A' -> A' 0%nat [0; y] <> update [x] F [0%nat] [y] 0.
Definition number (c : list nat) (y : list Z) (s : Z) : Z := 100 * Z.of_nat (nth 0 c 0%nat) + nth 0 y 0.
Lemma wrong_if (x : axis) y : ax_ok x -> 2 <= ax_size x 0 -> 0 <= y < ax_size x 0 ->
  (if y =? 0 then ax_size x 0 - 2 else if y =? ax_size x 0 - 1 then 1 else y) <> update [x] number [0%nat] [y] 0 -> wrong x number y.
Proof.
  intros Ok H2 Hy N. split; [exact Ok|]. split.
  - split; [reflexivity|]. intros d Hd. cbn in Hd. assert (d = 0%nat) as -> by lia. exact Hy.
  - intros A A' HA G E. apply N. rewrite <- E. clear N E. inversion G as [|d A0 B C G0 R]; subst. inversion G0; subst.
    destruct (C77_axis Z [0%nat; 1%nat] 1 [ax_size x 0] (Permutation_refl _) 0 ltac:(cbn; lia) H2 B A' R) as [H _].
    specialize (H 0 [y] ltac:(lia) ltac:(repeat constructor; lia)). cbn [nth length upd] in H. change (place [0%nat; 1%nat] 0 [y]) with [0; y] in H. rewrite H.
    match goal with |- _ = B 0%nat (place _ 0 [?z]) => change (place [0%nat; 1%nat] 0 [z]) with [0; z]; set (w := z) end.
    rewrite HA; [unfold number; cbn; reflexivity|]. unfold w. destruct (y =? 0); [lia|]. destruct (y =? ax_size x 0 - 1); lia.
Qed.
(* ghost layers of width two; of width zero (the cell 0 is a cell of the domain); two processes *)
Theorem C77_refuted : wrong (mkAxis 5 1 2) number 0 /\ wrong (mkAxis 5 1 0) number 0 /\ wrong (mkAxis 6 2 1) number 0 /\ inner [mkAxis 5 1 0] [0%nat] [0].
Proof.
  split; [|split; [|split]].
  - apply wrong_if; [|vm_compute; discriminate|split; [lia|reflexivity]|vm_compute; discriminate].
    split; [cbn; lia|]. split; [cbn; lia|]. split; [cbn; lia|]. intros [|c] Hc; cbn in Hc; [vm_compute; discriminate|lia].
  - apply wrong_if; [|vm_compute; discriminate|split; [lia|reflexivity]|vm_compute; discriminate].
    split; [cbn; lia|]. split; [cbn; lia|]. split; [cbn; lia|]. intros [|c] Hc; cbn in Hc; [vm_compute; discriminate|lia].
  - apply wrong_if; [|vm_compute; discriminate|split; [lia|reflexivity]|vm_compute; discriminate].
    split; [cbn; lia|]. split; [cbn; lia|]. split; [cbn; lia|]. intros [|[|c]] Hc; cbn in Hc; try lia; vm_compute; discriminate.
  - split; [reflexivity|]. intros d Hd. cbn in Hd. assert (d = 0%nat) as -> by lia. split; [cbn; lia|reflexivity].
Qed.
Print Assumptions C77_refuted.

(* Two axes and two components, the components between the axes: the corner comes from the
   opposite inner corner. *)
Example C77_example (A A' : arrays Z) : gupdate [1%nat; 2%nat; 0%nat] 2 [4; 5] 2 A A' ->
  is_order [1%nat; 2%nat; 0%nat] 3 /\ place [1%nat; 2%nat; 0%nat] 1 [0; 4] = [4; 1; 0] /\
  A' 0%nat [4; 1; 0] = A 0%nat [1; 1; 2] /\ A' 0%nat [2; 1; 0] = A 0%nat [2; 1; 2] /\ A' 0%nat [2; 1; 1] = A 0%nat [2; 1; 1] /\ A' 2%nat [4; 1; 0] = A 2%nat [4; 1; 0].
Proof.
  intros G. assert (O : is_order [1%nat; 2%nat; 0%nat] 3) by (unfold is_order; cbn; apply Permutation_sym; apply (Permutation_middle [1%nat; 2%nat] [] 0%nat)).
  destruct (C77_periodic Z [1%nat; 2%nat; 0%nat] 2 [4; 5] O ltac:(repeat constructor; lia) A A' G) as [H1 H2].
  split; [exact O|]. split; [reflexivity|].
  split; [exact (H1 1 [0; 4] ltac:(lia) ltac:(repeat constructor; lia))|]. split; [exact (H1 1 [0; 2] ltac:(lia) ltac:(repeat constructor; lia))|].
  split; [exact (H1 1 [1; 2] ltac:(lia) ltac:(repeat constructor; lia))|]. apply H2. left. lia.
Qed.
