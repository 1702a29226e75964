(* Property C84: the process grid and the messages between the buffers. *)
From Coq Require Import Permutation.
From Verif Require Import PyBase StencilProofs GridModel GridProofs StorageModel StorageProofs ExchangeProofs AsyncModel TopologyModel.
Open Scope Z_scope.

(* ---- ranks and coordinates ---- *)
Definition in_grid (dims c : list nat) : Prop := Forall2 (fun k p => (k < p)%nat) c dims.
Definition positive (dims : list nat) : Prop := Forall (fun p => (1 <= p)%nat) dims.
Lemma product_pos dims : positive dims -> (1 <= product dims)%nat.
Proof. intros H. induction H as [|p dims Hp H IH]; cbn; [lia|]. fold (product dims) in *. nia. Qed.
Lemma coords_in dims : positive dims -> forall r, (r < product dims)%nat -> in_grid dims (coords_of dims r).
Proof.
  intros H. induction H as [|p dims Hp H IH]; intros r Hr; [constructor|]. pose proof (product_pos dims H) as HP. cbn [coords_of].
  change (product (p :: dims)) with (p * product dims)%nat in Hr. constructor.
  - apply Nat.div_lt_upper_bound; lia.
  - apply IH. apply Nat.mod_upper_bound. lia.
Qed.
Lemma coords_len dims r : length (coords_of dims r) = length dims.
Proof. revert r. induction dims as [|p dims IH]; intros r; cbn; [reflexivity|]. now rewrite IH. Qed.
Lemma rank_of_lt dims : positive dims -> forall c, length c = length dims -> (rank_of dims c < product dims)%nat.
Proof.
  intros H. induction H as [|p dims Hp H IH]; intros [|c cs] Hl; try discriminate; [cbn; lia|]. cbn [rank_of]. change (product (p :: dims)) with (p * product dims)%nat.
  specialize (IH cs ltac:(cbn in Hl; lia)). pose proof (Z.mod_pos_bound c (Z.of_nat p) ltac:(lia)). assert (Z.to_nat (c mod Z.of_nat p) < p)%nat by lia. nia.
Qed.
Lemma coords_rank dims : positive dims -> forall c, length c = length dims ->
  coords_of dims (rank_of dims c) = map (fun q => Z.to_nat (fst q mod Z.of_nat (snd q))) (combine c dims).
Proof.
  intros H. induction H as [|p dims Hp H IH]; intros [|c cs] Hl; try discriminate; [reflexivity|]. cbn [rank_of coords_of combine map fst snd].
  pose proof (rank_of_lt dims H cs ltac:(cbn in Hl; lia)) as Hr. f_equal.
  - rewrite Nat.div_add_l by lia. rewrite Nat.div_small by exact Hr. lia.
  - rewrite Nat.add_comm, Nat.mod_add by lia. rewrite Nat.mod_small by exact Hr. apply IH. cbn in Hl. lia.
Qed.
Lemma rank_coords dims : positive dims -> forall r, (r < product dims)%nat -> rank_of dims (map Z.of_nat (coords_of dims r)) = r.
Proof.
  intros H. induction H as [|p dims Hp H IH]; intros r Hr; [cbn in *; lia|]. pose proof (product_pos dims H) as HP. cbn [coords_of map rank_of].
  change (product (p :: dims)) with (p * product dims)%nat in Hr.
  assert (Hq : (r / product dims < p)%nat) by (apply Nat.div_lt_upper_bound; lia).
  rewrite Z.mod_small by lia. rewrite Nat2Z.id. rewrite IH by (apply Nat.mod_upper_bound; lia). pose proof (Nat.div_mod r (product dims) ltac:(lia)). nia.
Qed.
Lemma grid_mod dims c : in_grid dims c -> map (fun q => Z.to_nat (fst q mod Z.of_nat (snd q))) (combine (map Z.of_nat c) dims) = c.
Proof. intros H. induction H as [|k p c dims Hk H IH]; cbn; [reflexivity|]. rewrite IH, Z.mod_small by lia. now rewrite Nat2Z.id. Qed.
Lemma in_grid_len dims c : in_grid dims c -> length c = length dims.
Proof. apply Forall2_length. Qed.

(* the ranks below the product are the processes of the grid *)
Theorem C84_ranks : forall dims, positive dims ->
  (forall r, (r < product dims)%nat -> in_grid dims (coords_of dims r) /\ rank_of dims (map Z.of_nat (coords_of dims r)) = r) /\
  (forall c, in_grid dims c -> (rank_of dims (map Z.of_nat c) < product dims)%nat /\ coords_of dims (rank_of dims (map Z.of_nat c)) = c).
Proof.
  intros dims H. split.
  - intros r Hr. split; [now apply coords_in|now apply rank_coords].
  - intros c Hc. assert (Hl : length (map Z.of_nat c) = length dims) by (rewrite map_length; now apply in_grid_len).
    split; [now apply rank_of_lt|]. rewrite coords_rank by assumption. now apply grid_mod.
Qed.

(* ---- the domains ---- *)
Definition dims_spec (compute_dims : nat -> nat -> list nat) : Prop :=
  forall size dim, (1 <= size)%nat -> (1 <= dim)%nat -> length (compute_dims size dim) = dim /\ positive (compute_dims size dim) /\ product (compute_dims size dim) = size.
Lemma cart_spec size split dims : create_cart size split = Some dims -> positive dims /\ (product dims <= size)%nat /\ split = map Z.of_nat dims.
Proof.
  unfold create_cart. destruct (forallb _ split) eqn:E; [|discriminate]. destruct (Nat.leb_spec (product (map Z.to_nat split)) size) as [H|]; [|discriminate].
  intros [= <-]. rewrite forallb_forall in E. split; [|split; [exact H|]].
  - apply Forall_forall. intros x Hx. apply in_map_iff in Hx. destruct Hx as [z [<- Hz]]. specialize (E z Hz). apply Z.leb_le in E. lia.
  - rewrite map_map. symmetry. rewrite <- map_id. apply map_ext_in. intros z Hz. specialize (E z Hz). apply Z.leb_le in E. lia.
Qed.
Lemma of_nat_pos l : positive l -> forallb (fun p => 1 <=? p) (map Z.of_nat l) = true.
Proof. intros H. apply forallb_forall. intros x Hx. apply in_map_iff in Hx. destruct Hx as [p [<- Hp]]. unfold positive in H. rewrite Forall_forall in H. apply Z.leb_le. specialize (H p Hp). lia. Qed.
Lemma map_to_of l : map Z.to_nat (map Z.of_nat l) = l.
Proof. rewrite map_map. rewrite <- (map_id l) at 2. apply map_ext. apply Nat2Z.id. Qed.
Lemma get_region_some sizes dims c : length sizes = length dims -> Forall (fun n => 0 <= n) sizes -> positive dims -> in_grid dims c -> get_region sizes dims c <> None.
Proof.
  intros Hl Hs Hd Hc. revert sizes Hl Hs. induction Hc as [|k p c dims Hk Hc IH]; intros [|n sizes] Hl Hs; try discriminate. cbn. inversion Hd; subst. inversion Hs; subst.
  destruct (C09_axis n p ltac:(assumption) ltac:(assumption)) as [H _]. destruct (proj2 (H k) Hk) as [r ->].
  specialize (IH ltac:(assumption) sizes ltac:(cbn in Hl; lia) ltac:(assumption)). now destruct (get_region sizes dims c).
Qed.
(* A process has a domain exactly if the options make a grid and its rank is below the number of
   processes of the grid. *)
Theorem C84_domain : forall cd size dim npx npy npz sizes rank,
  dims_spec cd -> (1 <= size)%nat -> (1 <= dim <= 3)%nat -> length sizes = dim -> Forall (fun n => 0 <= n) sizes ->
  let s := if (npx =? 1) && (npy =? 1) && (npz =? 1) then map Z.of_nat (cd size dim) else firstn dim [npx; npy; npz] in
  domain_of cd size dim npx npy npz sizes rank <> None <->
  Forall (fun p => 1 <= p) s /\ Z.of_nat (product (map Z.to_nat s)) <= Z.of_nat size /\ Z.of_nat rank < Z.of_nat (product (map Z.to_nat s)).
Proof.
  intros cd size dim npx npy npz sizes rank Hcd Hsize Hdim Hl Hs s.
  assert (Es : split_of cd size dim npx npy npz = s).
  { unfold split_of, s. assert (B : (npx =? npy) && (npy =? npz) && (npz =? 1) = (npx =? 1) && (npy =? 1) && (npz =? 1)).
    { destruct (Z.eqb_spec npx npy), (Z.eqb_spec npy npz), (Z.eqb_spec npz 1), (Z.eqb_spec npx 1), (Z.eqb_spec npy 1); cbn; try reflexivity; lia. }
    rewrite B. destruct (_ && _); [|reflexivity]. destruct (Hcd size dim Hsize ltac:(lia)) as [H1 _]. apply firstn_all2. rewrite map_length. lia. }
  assert (Ls : length s = dim).
  { unfold s. destruct (_ && _); [rewrite map_length; now apply Hcd|]. rewrite firstn_length. cbn. lia. }
  unfold domain_of. rewrite Es. split.
  - destruct (create_cart size s) as [dims|] eqn:E; [|congruence]. apply cart_spec in E. destruct E as (H1 & H2 & H3). unfold get_coords.
    destruct (Nat.ltb_spec rank (product dims)) as [Hr|]; [|congruence]. intros _. rewrite H3, map_to_of. split; [|lia].
    apply Forall_forall. intros x Hx. apply in_map_iff in Hx. destruct Hx as [p [<- Hp]]. unfold positive in H1. rewrite Forall_forall in H1. specialize (H1 p Hp). lia.
  - intros (H1 & H2 & H3). unfold create_cart. rewrite (proj2 (forallb_forall _ s)) by (intros x Hx; rewrite Forall_forall in H1; now apply Z.leb_le, H1).
    destruct (Nat.leb_spec (product (map Z.to_nat s)) size) as [_|]; [|lia]. cbn [andb]. unfold get_coords.
    destruct (Nat.ltb_spec rank (product (map Z.to_nat s))) as [Hr|]; [|lia].
    assert (HP : positive (map Z.to_nat s)).
    { apply Forall_forall. intros x Hx. apply in_map_iff in Hx. destruct Hx as [p [<- Hp]]. rewrite Forall_forall in H1. specialize (H1 p Hp). lia. }
    apply get_region_some; [rewrite map_length; lia|exact Hs|exact HP|]. now apply coords_in.
Qed.
(* With the default options every process has a domain, and every cell is in exactly one domain;
   with other options, if every process has a domain. *)
Theorem C84_owner : forall cd size dim npx npy npz sizes,
  dims_spec cd -> (1 <= size)%nat -> (1 <= dim <= 3)%nat -> length sizes = dim -> Forall (fun n => 0 <= n) sizes ->
  (npx = 1 /\ npy = 1 /\ npz = 1 -> forall rank, (rank < size)%nat -> domain_of cd size dim npx npy npz sizes rank <> None) /\
  ((exists rank, domain_of cd size dim npx npy npz sizes rank <> None) ->
   forall g, Forall2 (fun x n => 0 <= x < n) g sizes -> exists! rank, (rank < size)%nat /\ exists r, domain_of cd size dim npx npy npz sizes rank = Some r /\ in_region g r).
Proof.
  intros cd size dim npx npy npz sizes Hcd Hsize Hdim Hl Hs. split.
  - intros (-> & -> & ->) rank Hr. apply C84_domain; try assumption. cbv zeta. cbn [Z.eqb Pos.eqb andb]. destruct (Hcd size dim Hsize ltac:(lia)) as (H1 & H2 & H3). rewrite map_to_of, H3. split; [|lia].
    apply Forall_forall. intros x Hx. apply in_map_iff in Hx. destruct Hx as [p [<- Hp]]. unfold positive in H2. rewrite Forall_forall in H2. specialize (H2 p Hp). lia.
  - intros [r0 Hr0] g Hg. unfold domain_of in *. destruct (create_cart size _) as [dims|] eqn:E; [|congruence].
    apply cart_spec in E. destruct E as (H1 & H2 & H3).
    assert (Hd : length sizes = length dims).
    { unfold get_coords in Hr0. destruct (r0 <? product dims)%nat; [|congruence]. revert Hr0. generalize (coords_of dims r0). clear. revert dims.
      induction sizes as [|n sizes IH]; intros [|p dims] [|c cs]; cbn; try congruence. intros H. f_equal. apply (IH dims cs). destruct (region1 n p c); [|congruence]. now destruct (get_region sizes dims cs). }
    destruct (C09_all sizes dims Hd Hs H1 g Hg) as [c [[r [Hr Hin]] Hu]].
    assert (Hc : in_grid dims c).
    { clear - Hr H1 Hs. revert sizes dims r Hr H1 Hs. induction c as [|k c IH]; intros [|n sizes] [|p dims] r Hr H1 Hs; cbn in Hr; try discriminate; [constructor|].
      inversion H1; subst. inversion Hs; subst. destruct (region1 n p k) as [q|] eqn:E; [|discriminate]. destruct (get_region sizes dims c) as [rs|] eqn:E2; [|discriminate]. constructor; [|now apply (IH sizes dims rs)].
      destruct (C09_axis n p ltac:(assumption) ltac:(assumption)) as [H _]. apply H. now exists q. }
    destruct (proj2 (C84_ranks dims H1) c Hc) as [K1 K2].
    exists (rank_of dims (map Z.of_nat c)). split.
    + split; [lia|]. exists r. unfold get_coords. destruct (Nat.ltb_spec (rank_of dims (map Z.of_nat c)) (product dims)); [|lia]. rewrite K2. now split.
    + intros rk [Hk [r' [Hr' Hin']]]. unfold get_coords in Hr'. destruct (Nat.ltb_spec rk (product dims)) as [Hlt|]; [|discriminate].
      assert (Ec : c = coords_of dims rk) by (apply Hu; now exists r'). rewrite Ec. now apply rank_coords.
Qed.
(* the neighbours of storage.py are those of the exchanges of C12 and C83 *)
Lemma nth_neighbors dims r d s : (d < length dims)%nat -> (s < 2)%nat ->
  nth (2 * d + s) (neighbors dims r) 0%nat = rank_of dims (move (coords_of dims r) d (if (s =? 0)%nat then -1 else 1)).
Proof.
  intros Hd Hs. unfold neighbors. set (f := fun i => _). 
  assert (H : forall n k d, (d < n)%nat -> nth (2 * d + s) (flat_map f (seq k n)) 0%nat = nth s (f (k + d)%nat) 0%nat).
  { induction n as [|n IH]; intros k e He; [lia|]. cbn [seq flat_map]. destruct e as [|e].
    - rewrite app_nth1 by (cbn; lia). f_equal. f_equal. lia.
    - rewrite app_nth2 by (cbn; lia). replace (2 * S e + s - length (f k))%nat with (2 * e + s)%nat by (cbn; lia). rewrite IH by lia. f_equal. f_equal. lia. }
  rewrite H by exact Hd. cbn [Nat.add]. subst f. cbv beta. destruct s as [|[|s]]; [reflexivity|reflexivity|lia].
Qed.
Lemma rank_mod dims : forall c c', length c = length dims -> length c' = length dims ->
  (forall d, (d < length dims)%nat -> nth d c 0 mod Z.of_nat (nth d dims 1%nat) = nth d c' 0 mod Z.of_nat (nth d dims 1%nat)) -> rank_of dims c = rank_of dims c'.
Proof.
  induction dims as [|p dims IH]; intros [|x c] [|x' c'] H1 H2 H; try discriminate; [reflexivity|]. cbn [rank_of]. pose proof (H 0%nat ltac:(cbn; lia)) as H0. cbn in H0. rewrite H0.
  f_equal. apply IH; [cbn in *; lia|cbn in *; lia|]. intros d Hd. exact (H (S d) ltac:(cbn; lia)).
Qed.
Lemma nth_of_nat c d : nth d (map Z.of_nat c) 0 = Z.of_nat (nth d c 0%nat).
Proof. change 0 with (Z.of_nat 0). apply map_nth. Qed.
Lemma upd_over {A} (l : list A) d x y : upd (upd l d x) d y = upd l d y.
Proof. revert d. induction l as [|a l IH]; intros [|d]; cbn; try reflexivity. now rewrite IH. Qed.
Lemma upd_id {A} (l : list A) d z : (d < length l)%nat -> upd l d (nth d l z) = l.
Proof. revert d. induction l as [|a l IH]; intros [|d] H; cbn in *; try lia; [reflexivity|]. rewrite IH by lia. reflexivity. Qed.
Lemma move_rank dims c d s : positive dims -> length c = length dims -> (d < length dims)%nat ->
  rank_of dims (move c d s) = rank_of dims (map Z.of_nat (upd c d (Z.to_nat ((Z.of_nat (nth d c 0%nat) + s) mod Z.of_nat (nth d dims 1%nat))))).
Proof.
  intros Hp Hl Hd. assert (Hpd : (1 <= nth d dims 1)%nat) by (unfold positive in Hp; rewrite Forall_forall in Hp; apply Hp, nth_In; exact Hd).
  apply rank_mod; [unfold move; now rewrite upd_length, map_length|now rewrite map_length, upd_length|].
  intros e He. unfold move. rewrite nth_of_nat, !nth_upd by (rewrite ?map_length; lia). destruct (Nat.eqb_spec e d) as [->|]; [|now rewrite nth_of_nat].
  rewrite Z2Nat.id by (apply Z.mod_pos_bound; lia). now rewrite Z.mod_mod by lia.
Qed.
Lemma in_grid_upd dims c d x : in_grid dims c -> (d < length dims)%nat -> (x < nth d dims 1)%nat -> in_grid dims (upd c d x).
Proof.
  intros H. revert d. induction H as [|k p c dims Hk H IH]; intros [|d] Hd Hx; cbn in *; try lia; constructor; auto. apply IH; [lia|exact Hx].
Qed.
Theorem C84_neighbors : forall axes r, positive (map ax_p axes) -> (r < product (map ax_p axes))%nat ->
  let dims := map ax_p axes in let c := coords_of dims r in
  forall d, (d < length axes)%nat -> let a := nth d axes dax in let k := nth d c 0%nat in
  nth (2 * d) (neighbors dims r) 0%nat = rank_of dims (map Z.of_nat (upd c d (nbr_low a k))) /\
  nth (2 * d + 1) (neighbors dims r) 0%nat = rank_of dims (map Z.of_nat (upd c d (nbr_high a k))) /\
  (* the neighbours of the neighbours *)
  nth (2 * d + 1) (neighbors dims (nth (2 * d) (neighbors dims r) 0%nat)) 0%nat = r /\
  nth (2 * d) (neighbors dims (nth (2 * d + 1) (neighbors dims r) 0%nat)) 0%nat = r.
Proof.
  intros axes r Hp Hr dims c d Hd a k.
  assert (Hdl : (d < length dims)%nat) by (unfold dims; now rewrite map_length).
  assert (Ea : nth d dims 1%nat = ax_p a) by (unfold dims, a; change 1%nat with (ax_p dax); apply map_nth).
  assert (Hpd : (1 <= ax_p a)%nat) by (rewrite <- Ea; unfold positive in Hp; rewrite Forall_forall in Hp; apply Hp, nth_In; exact Hdl).
  assert (Hc : in_grid dims c) by now apply coords_in. assert (Lc : length c = length dims) by now apply in_grid_len.
  assert (Hk : (k < ax_p a)%nat).
  { rewrite <- Ea. unfold k. clear - Hc Hdl. revert d Hdl. induction Hc as [|x p c0 ds Hx Hc IH]; intros [|d] Hd; cbn in *; try lia. apply IH. lia. }
  assert (L : forall e, (e < product dims)%nat -> nth (2 * d) (neighbors dims e) 0%nat = rank_of dims (map Z.of_nat (upd (coords_of dims e) d (nbr_low a (nth d (coords_of dims e) 0%nat))))).
  { intros e _. pose proof (nth_neighbors dims e d 0 Hdl ltac:(lia)) as H. rewrite Nat.add_0_r in H. rewrite H. cbn [Nat.eqb]. rewrite move_rank by (assumption || apply coords_len). now rewrite Ea. }
  assert (Hh : forall e, (e < product dims)%nat -> nth (2 * d + 1) (neighbors dims e) 0%nat = rank_of dims (map Z.of_nat (upd (coords_of dims e) d (nbr_high a (nth d (coords_of dims e) 0%nat))))).
  { intros e _. rewrite (nth_neighbors dims e d 1 Hdl ltac:(lia)). cbn [Nat.eqb]. rewrite move_rank by (assumption || apply coords_len). now rewrite Ea. }
  assert (B1 : (nbr_low a k < ax_p a)%nat) by (unfold nbr_low; pose proof (Z.mod_pos_bound (Z.of_nat k - 1) (Z.of_nat (ax_p a)) ltac:(lia)); lia).
  assert (B2 : (nbr_high a k < ax_p a)%nat) by (unfold nbr_high; pose proof (Z.mod_pos_bound (Z.of_nat k + 1) (Z.of_nat (ax_p a)) ltac:(lia)); lia).
  assert (I1 : nbr_high a (nbr_low a k) = k).
  { unfold nbr_high, nbr_low. pose proof (Z.mod_pos_bound (Z.of_nat k - 1) (Z.of_nat (ax_p a)) ltac:(lia)). rewrite Z2Nat.id by lia. rewrite Zplus_mod_idemp_l. replace (Z.of_nat k - 1 + 1) with (Z.of_nat k) by lia. rewrite Z.mod_small by lia. lia. }
  assert (I2 : nbr_low a (nbr_high a k) = k).
  { unfold nbr_high, nbr_low. pose proof (Z.mod_pos_bound (Z.of_nat k + 1) (Z.of_nat (ax_p a)) ltac:(lia)). rewrite Z2Nat.id by lia. rewrite Zminus_mod_idemp_l. replace (Z.of_nat k + 1 - 1) with (Z.of_nat k) by lia. rewrite Z.mod_small by lia. lia. }
  assert (R : forall x, (x < ax_p a)%nat -> (rank_of dims (map Z.of_nat (upd c d x)) < product dims)%nat /\ coords_of dims (rank_of dims (map Z.of_nat (upd c d x))) = upd c d x).
  { intros x Hx. apply C84_ranks; [exact Hp|]. apply in_grid_upd; [exact Hc|exact Hdl|now rewrite Ea]. }
  split; [exact (L r Hr)|]. split; [exact (Hh r Hr)|]. rewrite (L r Hr), (Hh r Hr). fold c. fold k. destruct (R _ B1) as [R1 R2]. destruct (R _ B2) as [R3 R4]. split.
  - rewrite (Hh _ R1), R2. rewrite nth_upd by lia. rewrite Nat.eqb_refl, I1, upd_over. unfold k. rewrite upd_id by lia. now apply rank_coords.
  - rewrite (L _ R3), R4. rewrite nth_upd by lia. rewrite Nat.eqb_refl, I2, upd_over. unfold k. rewrite upd_id by lia. now apply rank_coords.
Qed.

(* ---- the messages ---- *)
Lemma zrange_in n x : In x (zrange n) <-> 0 <= x < n.
Proof.
  unfold zrange. rewrite in_map_iff. split.
  - intros [k [<- Hk]]. apply in_seq in Hk. lia.
  - intros H. exists (Z.to_nat x). split; [lia|]. apply in_seq. lia.
Qed.
Lemma zrange_nodup n : NoDup (zrange n).
Proof. unfold zrange. apply FinFun.Injective_map_NoDup; [intros x y; lia|apply seq_NoDup]. Qed.
Lemma indices_in shape : forall i, In i (indices shape) <-> in_shape i shape.
Proof.
  induction shape as [|n shape IH]; intros i; cbn [indices].
  - split; [intros [<-|[]]; constructor|intros H; inversion H; now left].
  - rewrite in_flat_map. split.
    + intros [x [Hx Hi]]. apply in_map_iff in Hi. destruct Hi as [j [<- Hj]]. constructor; [now apply zrange_in|now apply IH].
    + intros H. inversion H as [|x m j s Hx Hj]; subst. exists x. split; [now apply zrange_in|]. apply in_map, IH, Hj.
Qed.
Lemma unpack_spec {A V} (f : A -> Z) (g : A -> V) l : (forall i j, In i l -> In j l -> f i = f j -> i = j) -> forall buf,
  (forall i, In i l -> unpack (map f l) (map g l) buf (f i) = g i) /\ (forall o, (forall i, In i l -> f i <> o) -> unpack (map f l) (map g l) buf o = buf o).
Proof.
  induction l as [|a l IH]; intros Hf buf; [split; [intros i []|reflexivity]|]. unfold unpack in *. cbn [map combine fold_left fst snd].
  destruct (IH (fun i j Hi Hj => Hf i j (or_intror Hi) (or_intror Hj)) (fun o => if o =? f a then g a else buf o)) as [H1 H2]. split.
  - intros i Hi. destruct (in_dec Z.eq_dec (f i) (map f l)) as [Hin|Hnin].
    + apply in_map_iff in Hin. destruct Hin as [j [Ej Hj]]. assert (j = i) by (apply Hf; [now right|exact Hi|exact Ej]). subst j. now apply H1.
    + destruct Hi as [<-|Hi]; [|destruct Hnin; now apply in_map]. rewrite H2; [now rewrite Z.eqb_refl|]. intros j Hj E. apply Hnin. rewrite <- E. now apply in_map.
  - intros o Ho. rewrite H2 by (intros i Hi; apply Ho; now right). destruct (Z.eqb_spec o (f a)) as [->|]; [|reflexivity]. destruct (Ho a ltac:(now left) eq_refl).
Qed.
Lemma add_nth_error x : forall y j, length x = length y -> nth_error (add_list x y) j = match nth_error x j, nth_error y j with Some a, Some b => Some (a + b) | _, _ => None end.
Proof. induction x as [|a x IH]; intros [|b y] [|j] H; try discriminate; try reflexivity. cbn. apply IH. cbn in H. lia. Qed.
Lemma add_length x : forall y, length x = length y -> length (add_list x y) = length x.
Proof. induction x as [|a x IH]; intros [|b y] H; try discriminate; [reflexivity|]. cbn. f_equal. apply IH. cbn in H. lia. Qed.
Lemma scatter_add ind x y : length x = length y -> is_order ind (length x) -> scatter 0 ind (add_list x y) = add_list (scatter 0 ind x) (scatter 0 ind y).
Proof.
  intros Hl Ho. assert (Ho' : is_order ind (length y)) by now rewrite <- Hl. assert (Ha : length (add_list x y) = length x) by now apply add_length.
  destruct (scatter_spec 0 ind x Ho) as [L1 S1]. destruct (scatter_spec 0 ind y Ho') as [L2 S2]. symmetry. apply scatter_unique.
  - now rewrite Ha.
  - rewrite add_length; lia.
  - intros i j Hij. rewrite add_nth_error by lia. rewrite (S1 i j Hij), (S2 i j Hij). now rewrite add_nth_error.
Qed.
(* in_shape by components *)
Lemma in_shape_iff k shape : in_shape k shape <-> length k = length shape /\ forall d, (d < length shape)%nat -> 0 <= nth d k 0 < nth d shape 0.
Proof.
  split.
  - intros H. split; [now apply Forall2_length in H|]. induction H as [|x n k s Hx H IH]; intros [|d] Hd; cbn in *; try lia. apply IH. lia.
  - intros [Hl H]. revert shape Hl H. induction k as [|x k IH]; intros [|n shape] Hl H; try discriminate; constructor.
    + exact (H 0%nat ltac:(cbn; lia)).
    + apply IH; [cbn in Hl; lia|]. intros d Hd. exact (H (S d) ltac:(cbn; lia)).
Qed.
(* each index of the buffer is the scattered index of an entry *)
Lemma scatter_onto ind (i : list Z) n : is_order ind n -> length i = n -> exists k, length k = n /\ scatter 0 ind k = i.
Proof.
  intros Ho Hl. set (k := map (fun j => nth j i 0) ind). assert (Lk : length k = n) by (unfold k; rewrite map_length; now apply is_order_length).
  exists k. split; [exact Lk|]. symmetry. apply scatter_unique; [now rewrite Lk|lia|]. intros a b Hab. unfold k. rewrite nth_error_map, Hab. cbn.
  apply nth_error_nth'. assert (b < n)%nat by (eapply is_order_lt; [exact Ho|]; eapply nth_error_In; exact Hab). lia.
Qed.
Lemma scatter_in_shape_inv ind k shape : is_order ind (length shape) -> length k = length shape -> in_shape (scatter 0 ind k) (scatter 0 ind shape) -> in_shape k shape.
Proof.
  intros Ho Hl H. apply in_shape_iff in H. destruct H as [_ H]. destruct (scatter_spec 0 ind shape Ho) as [L1 S1]. rewrite <- Hl in Ho. destruct (scatter_spec 0 ind k Ho) as [L2 S2].
  apply in_shape_iff. split; [exact Hl|]. intros d Hd. destruct (nth_error ind d) as [j|] eqn:E; [|apply nth_error_None in E; rewrite (is_order_length _ _ Ho) in E; lia].
  assert (Hj : (j < length shape)%nat) by (rewrite <- Hl; eapply is_order_lt; [exact Ho|]; eapply nth_error_In; exact E).
  specialize (H j ltac:(lia)). assert (N1 := S1 d j E). assert (N2 := S2 d j E).
  rewrite (nth_error_nth' _ 0) in N1 by lia. rewrite (nth_error_nth' shape 0) in N1 by lia. injection N1 as N1.
  rewrite (nth_error_nth' _ 0) in N2 by lia. rewrite (nth_error_nth' k 0) in N2 by lia. injection N2 as N2. now rewrite N1, N2 in H.
Qed.
Section Slab.
Variables (ind : list nat) (d : nat) (h : Z).
Definition starts (n : nat) (s : Z) : list Z := upd (repeat 0 n) (S d) s.
Lemma starts_nth n s e : (S d < n)%nat -> (e < n)%nat -> nth e (starts n s) 0 = if (e =? S d)%nat then s else 0.
Proof. intros Hd He. unfold starts. rewrite nth_upd by (rewrite repeat_length; lia). destruct (e =? S d)%nat; [reflexivity|]. apply nth_repeat. Qed.
Lemma add_nth x y e : length x = length y -> (e < length x)%nat -> nth e (add_list x y) 0 = nth e x 0 + nth e y 0.
Proof. revert y e. induction x as [|a x IH]; intros [|b y] [|e] Hl He; cbn in *; try lia. apply IH; lia. Qed.
Lemma shifted k s : (S d < length k)%nat -> add_list k (starts (length k) s) = upd k (S d) (nth (S d) k 0 + s).
Proof.
  intros Hd. assert (L : length k = length (starts (length k) s)) by (unfold starts; now rewrite upd_length, repeat_length).
  apply (nth_ext _ _ 0 0); [rewrite add_length, upd_length by exact L; reflexivity|]. intros e He. rewrite add_length in He by exact L.
  rewrite add_nth by assumption. rewrite starts_nth, nth_upd by lia. destruct (Nat.eqb_spec e (S d)) as [->|]; lia.
Qed.
(* the slab of the array of shape sh from s on *)
Lemma slab_offsets sh s : is_order ind (length sh) -> (S d < length sh)%nat ->
  slab_type ind sh d h s = map (fun i => rowmajor (scatter 0 ind sh) (add_list i (scatter 0 ind (starts (length sh) s)))) (indices (scatter 0 ind (upd sh (S d) h))).
Proof. reflexivity. Qed.
Lemma in_small sh s k : length k = length sh -> (S d < length sh)%nat -> 0 <= s -> 0 <= h -> s + h <= nth (S d) sh 0 ->
  in_shape k (upd sh (S d) h) -> in_shape (add_list k (starts (length sh) s)) sh.
Proof.
  intros Hl Hd Hs Hh Hb H. rewrite <- Hl, shifted by lia. apply in_shape_iff in H. destruct H as [_ H]. rewrite upd_length in H. apply in_shape_iff. split; [now rewrite upd_length|].
  intros e He. rewrite nth_upd by lia. pose proof (H e He) as He'. pose proof (H (S d) Hd) as Hd'. rewrite nth_upd in He', Hd' by lia. rewrite Nat.eqb_refl in Hd'. destruct (Nat.eqb_spec e (S d)) as [->|]; lia.
Qed.
End Slab.
(* The entry k of the array which receives: inside of the slab the entry of the sender at the same
   place of its slab, otherwise unchanged.  The two arrays have the same extent along the other axes. *)
Theorem C84_transmit : forall V (y x : array (V := V)) d h sstart rstart k,
  let sx := a_shape x in let sy := a_shape y in
  a_ind y = a_ind x -> is_order (a_ind x) (length sx) -> length sy = length sx -> (S d < length sx)%nat ->
  (forall e, (e < length sx)%nat -> e <> S d -> nth e sy 0 = nth e sx 0) ->
  0 <= h -> 0 <= sstart -> sstart + h <= nth (S d) sy 0 -> 0 <= rstart -> rstart + h <= nth (S d) sx 0 -> in_shape k sx ->
  getitem (transmit d h sstart rstart y x) k =
    if (rstart <=? nth (S d) k 0) && (nth (S d) k 0 <? rstart + h) then getitem y (upd k (S d) (nth (S d) k 0 - rstart + sstart)) else getitem x k.
Proof.
  intros V y x d h ss rs k sx sy Hi Ho Hl Hd Heq Hh Hs1 Hs2 Hr1 Hr2 Hk. assert (Lk : length k = length sx) by (apply in_shape_iff in Hk; apply Hk).
  assert (Hup : upd sy (S d) h = upd sx (S d) h).
  { apply (nth_ext _ _ 0 0); [now rewrite !upd_length|]. intros e He. rewrite upd_length in He. rewrite !nth_upd by lia. destruct (Nat.eqb_spec e (S d)); [reflexivity|]. apply Heq; lia. }
  assert (Hoy : is_order (a_ind x) (length sy)) by now rewrite Hl.
  assert (Hou : is_order (a_ind x) (length (upd sx (S d) h))) by now rewrite upd_length.
  unfold getitem, transmit, offset. cbn [a_buf a_ind a_shape]. fold sx sy. rewrite Hi. fold sy.
  rewrite (slab_offsets (a_ind x) d h sx rs) by assumption. rewrite (slab_offsets (a_ind x) d h sy ss) by (assumption || lia).
  rewrite Hup. unfold pack. rewrite map_map.
  set (sub := indices (scatter 0 (a_ind x) (upd sx (S d) h))).
  set (f := fun i => rowmajor (scatter 0 (a_ind x) sx) (add_list i (scatter 0 (a_ind x) (starts d (length sx) rs)))).
  set (g := fun i => a_buf y (rowmajor (scatter 0 (a_ind x) sy) (add_list i (scatter 0 (a_ind x) (starts d (length sy) ss))))).
  (* the elements of the slab: the scattered indices of the small shape *)
  assert (Sub : forall i, In i sub -> exists q, in_shape q (upd sx (S d) h) /\ length q = length sx /\ i = scatter 0 (a_ind x) q).
  { intros i Hin. unfold sub in Hin. apply indices_in in Hin. assert (Li : length i = length sx).
    { apply in_shape_iff in Hin. destruct Hin as [Hin _]. rewrite Hin. destruct (scatter_spec 0 (a_ind x) (upd sx (S d) h) Hou) as [L _]. rewrite L. apply upd_length. }
    destruct (scatter_onto (a_ind x) i (length sx) Ho Li) as [q [Lq Eq]]. exists q. split; [|split; [exact Lq|now symmetry]].
    apply (scatter_in_shape_inv (a_ind x)); [exact Hou|now rewrite upd_length|]. now rewrite Eq. }
  assert (Add : forall q n s, length q = length sx -> n = length sx -> add_list (scatter 0 (a_ind x) q) (scatter 0 (a_ind x) (starts d n s)) = scatter 0 (a_ind x) (add_list q (starts d n s))).
  { intros q n s Lq ->. symmetry. apply scatter_add; [unfold starts; now rewrite upd_length, repeat_length|now rewrite Lq]. }
  assert (Shape : forall q, in_shape q (upd sx (S d) h) -> length q = length sx -> in_shape (add_list q (starts d (length sx) rs)) sx).
  { intros q Hq Lq. apply (in_small d h sx rs q Lq Hd); assumption. }
  assert (Ff : forall q, length q = length sx -> f (scatter 0 (a_ind x) q) = rowmajor (scatter 0 (a_ind x) sx) (scatter 0 (a_ind x) (add_list q (starts d (length sx) rs)))).
  { intros q Lq. unfold f. now rewrite Add. }
  assert (Inj : forall a b, in_shape a sx -> in_shape b sx -> rowmajor (scatter 0 (a_ind x) sx) (scatter 0 (a_ind x) a) = rowmajor (scatter 0 (a_ind x) sx) (scatter 0 (a_ind x) b) -> a = b).
  { intros a b Ha Hb E. unfold rowmajor in E. apply rowmajor_inj in E; [|now apply scatter_in_shape|now apply scatter_in_shape]. destruct E as [_ E]. apply in_shape_iff in Ha, Hb.
    apply (scatter_inj 0 (a_ind x)); [destruct Ha as [-> _]; exact Ho|destruct Ha as [-> _]; destruct Hb as [-> _]; reflexivity|exact E]. }
  assert (Back : forall q, length q = length sx -> upd (add_list q (starts d (length sx) rs)) (S d) (nth (S d) (add_list q (starts d (length sx) rs)) 0 - rs) = q).
  { intros q Lq. rewrite <- Lq, shifted by lia. rewrite upd_over, nth_upd by lia. rewrite Nat.eqb_refl. replace (nth (S d) q 0 + rs - rs) with (nth (S d) q 0) by lia. apply upd_id. lia. }
  destruct (unpack_spec f g sub) with (buf := a_buf x) as [U1 U2].
  { intros i j Hin Hjn E. destruct (Sub i Hin) as (q & Hq & Lq & ->). destruct (Sub j Hjn) as (q' & Hq' & Lq' & ->). f_equal. rewrite !Ff in E by assumption.
    apply Inj in E; [|now apply Shape|now apply Shape]. rewrite <- (Back q Lq), <- (Back q' Lq'). now rewrite E. }
  destruct ((rs <=? nth (S d) k 0) && (nth (S d) k 0 <? rs + h)) eqn:Hin.
  - apply andb_prop in Hin. destruct Hin as [B1 B2]. apply Z.leb_le in B1. apply Z.ltb_lt in B2.
    set (q := upd k (S d) (nth (S d) k 0 - rs)). assert (Lq : length q = length sx) by (unfold q; now rewrite upd_length).
    assert (Hq : in_shape q (upd sx (S d) h)).
    { apply in_shape_iff. rewrite upd_length. split; [exact Lq|]. intros e He. unfold q. rewrite !nth_upd by lia. apply in_shape_iff in Hk. destruct Hk as [_ Hk]. specialize (Hk e He). destruct (Nat.eqb_spec e (S d)); lia. }
    assert (Eq : forall s, add_list q (starts d (length q) s) = upd k (S d) (nth (S d) k 0 - rs + s)).
    { intros s. rewrite shifted by lia. unfold q. rewrite upd_over, nth_upd by lia. now rewrite Nat.eqb_refl. }
    assert (Eq0 : add_list q (starts d (length sx) rs) = k).
    { rewrite <- Lq, Eq. replace (nth (S d) k 0 - rs + rs) with (nth (S d) k 0) by lia. apply upd_id. lia. }
    assert (Hqs : In (scatter 0 (a_ind x) q) sub) by (apply indices_in, scatter_in_shape; assumption).
    pose proof (U1 _ Hqs) as U. rewrite (Ff q Lq), Eq0 in U. refine (eq_trans U _). unfold g. rewrite (Add q (length sy) ss Lq Hl). rewrite Hl, <- Lq, Eq. reflexivity.
  - apply U2. intros i Hi' E. destruct (Sub i Hi') as (q & Hq & Lq & ->). rewrite (Ff q Lq) in E. apply Inj in E; [|now apply Shape|exact Hk]. rewrite <- E in Hin.
    rewrite <- Lq, shifted in Hin by lia. rewrite nth_upd, Nat.eqb_refl in Hin by lia. apply in_shape_iff in Hq. destruct Hq as [_ Hq]. specialize (Hq (S d)). rewrite upd_length in Hq. specialize (Hq Hd). rewrite nth_upd, Nat.eqb_refl in Hq by lia.
    apply andb_false_iff in Hin. destruct Hin as [B|B]; [apply Z.leb_gt in B|apply Z.ltb_ge in B]; lia.
Qed.
(* The message of an exchange in the buffers is that of the model of update (C83, AsyncModel): the
   arrays of the process c and of its peer, in any storage order, with nv values in each cell. *)
Definition extents (axes : list axis) (c : list nat) : list Z := map (fun q => ax_size (fst q) (snd q)) (combine axes c).
Lemma extents_len axes c : coords_ok axes c -> length (extents axes c) = length axes.
Proof. intros H. unfold extents. rewrite map_length, combine_length. apply Forall2_length in H. lia. Qed.
Lemma extents_nth axes c : coords_ok axes c -> forall e, (e < length axes)%nat -> nth e (extents axes c) 0 = ax_size (nth e axes dax) (nth e c 0%nat).
Proof. intros H. induction H as [|a k axes c Hk H IH]; intros [|e] He; cbn [length] in He; [lia|lia|reflexivity|]. apply IH. lia. Qed.
Theorem C84_message : forall V axes c d r s nv (y x : array (V := V)) v i,
  Forall ax_ok axes -> coords_ok axes c -> (d < length axes)%nat -> let a := nth d axes dax in let p := peer d c r in
  In r (recvs d a (nth d c 0%nat)) -> In s (sends d a (m_peer r)) ->
  a_shape x = nv :: extents axes c -> a_shape y = nv :: extents axes p -> a_ind y = a_ind x -> is_order (a_ind x) (S (length axes)) ->
  0 <= v < nv -> stored axes c i ->
  getitem (transmit d (ax_h a) (m_start s) (m_start r) y x) (v :: i) = write_slab axes d r (slab d s (fun j => getitem y (v :: j))) (fun j => getitem x (v :: j)) i.
Proof.
  intros V axes c d r s nv y x v i Ha Hc Hd a p Hr Hs Sx Sy Hi Ho Hv Hst.
  pose proof (proj1 (coords_ok_iff axes c) Hc) as [Lc Hcn]. specialize (Hcn d Hd). fold a in Hcn.
  assert (Oa : ax_ok a) by (rewrite Forall_forall in Ha; apply Ha, nth_In; exact Hd).
  assert (Hp : (m_peer r < ax_p a)%nat).
  { destruct Hr as [<-|[<-|[]]]; cbn [m_peer]; [apply nbr_low_high|apply nbr_high_low]; exact Hcn. }
  assert (Hpc : coords_ok axes p).
  { apply coords_ok_iff. unfold p, peer. rewrite upd_length. split; [exact Lc|]. intros e He. rewrite nth_upd by lia. destruct (Nat.eqb_spec e d) as [->|]; [exact Hp|]. apply (proj1 (coords_ok_iff axes c) Hc). exact He. }
  assert (Ex : nth d (extents axes c) 0 = ax_size a (nth d c 0%nat)) by now apply extents_nth.
  assert (Ep : nth d (extents axes p) 0 = ax_size a (m_peer r)).
  { rewrite extents_nth by assumption. unfold p, peer. rewrite nth_upd, Nat.eqb_refl by lia. reflexivity. }
  assert (Hh : 0 <= ax_h a) by apply Oa.
  assert (Rc : 2 * ax_h a <= ax_size a (nth d c 0%nat) - ax_h a) by (unfold ax_size; destruct Oa as (_ & _ & _ & H); specialize (H _ Hcn); lia).
  assert (Rp : 2 * ax_h a <= ax_size a (m_peer r) - ax_h a) by (unfold ax_size; destruct Oa as (_ & _ & _ & H); specialize (H _ Hp); lia).
  assert (Br : 0 <= m_start r /\ m_start r + ax_h a <= ax_size a (nth d c 0%nat)) by (destruct Hr as [<-|[<-|[]]]; cbn [m_start]; lia).
  assert (Bs : 0 <= m_start s /\ m_start s + ax_h a <= ax_size a (m_peer r)) by (destruct Hs as [<-|[<-|[]]]; cbn [m_start]; lia).
  destruct Hst as [Li Hst].
  rewrite C84_transmit.
  - cbn [nth upd]. unfold write_slab, in_slab, slab, AsyncModel.ax. fold a. destruct (_ && _); [|reflexivity].
    rewrite upd_over, nth_upd, Nat.eqb_refl by lia. do 3 f_equal. lia.
  - exact Hi.
  - rewrite Sx. cbn [length]. now rewrite extents_len.
  - rewrite Sx, Sy. cbn [length]. now rewrite !extents_len.
  - rewrite Sx. cbn [length]. rewrite extents_len by exact Hc. lia.
  - rewrite Sx, Sy. cbn [length]. rewrite extents_len by exact Hc. intros [|e] He Hne; [reflexivity|]. cbn [nth]. rewrite !extents_nth by (assumption || lia).
    unfold p, peer. rewrite nth_upd by lia. destruct (Nat.eqb_spec e d) as [->|]; [lia|reflexivity].
  - exact Hh.
  - apply Bs.
  - rewrite Sy. cbn [nth]. rewrite Ep. apply Bs.
  - apply Br.
  - rewrite Sx. cbn [nth]. rewrite Ex. apply Br.
  - rewrite Sx. constructor; [exact Hv|]. apply in_shape_iff. rewrite extents_len by exact Hc. split; [exact Li|]. intros e He. rewrite extents_nth by assumption. exact (Hst e He).
Qed.

(* ---- options which are cut off ---- two dimensions, four processes and -npz 4: the grid has one
   process, and the three others stop *)
Theorem C84_ignored_refuted : exists npx npy npz, forall cd, dims_spec cd ->
  domain_of cd 4 2 npx npy npz [8; 8] 0 = Some [(0, 8); (0, 8)] /\ forall rank, (1 <= rank)%nat -> domain_of cd 4 2 npx npy npz [8; 8] rank = None.
Proof.
  exists 1, 1, 4. intros cd _. split; [reflexivity|]. intros [|rank] H; [lia|]. reflexivity.
Qed.

(* ---- get_directions ---- not used in the code *)
Theorem C84_directions : forall dim ds, get_directions dim = Some ds ->
  NoDup ds /\ forall v, In v ds <-> length v = dim /\ Forall (fun x => -1 <= x <= 1) v.
Proof.
  assert (K : forall l1 l2 : list (list Z), (if list_eq_dec (list_eq_dec Z.eq_dec) (nodup (list_eq_dec Z.eq_dec) l1) l1 then true else false) = true -> l1 = l2 -> NoDup l2).
  { intros l1 l2 H <-. destruct (list_eq_dec _ _ _) as [E|]; [|discriminate]. rewrite <- E. apply NoDup_nodup. }
  intros [|[|[|[|dim]]]] ds; cbn [get_directions]; intros H; try discriminate; injection H as <-; (split; [eapply K; [|reflexivity]; vm_compute; reflexivity|]); intros v; split.
  all: try (intros [Hl Hf]; repeat (destruct v as [|? v]; cbn in Hl; try lia); repeat match goal with H : Forall _ (_ :: _) |- _ => inversion H; subst; clear H end;
    repeat match goal with H : -1 <= ?z <= 1 |- _ => (assert (z = -1 \/ z = 0 \/ z = 1) as Hz by lia; destruct Hz as [Hz|[Hz|Hz]]; subst z); clear H end; vm_compute; tauto).
  all: intros Hin; vm_compute in Hin; repeat destruct Hin as [<-|Hin]; try contradiction; (split; [reflexivity|]); repeat constructor; lia.
Qed.
(* in the lexicographic order: the direction i has the digits of i in base 3, less one *)
Theorem C84_directions_order : forall dim ds, get_directions dim = Some ds -> Z.of_nat (length ds) = 3 ^ Z.of_nat dim /\
  forall i d, (i < length ds)%nat -> (d < dim)%nat -> nth d (nth i ds []) 0 = (Z.of_nat i / 3 ^ (Z.of_nat dim - 1 - Z.of_nat d)) mod 3 - 1.
Proof.
  intros dim ds H. assert (A : (Z.of_nat (length ds) =? 3 ^ Z.of_nat dim) && forallb (fun i => forallb (fun d => nth d (nth i ds []) 0 =? (Z.of_nat i / 3 ^ (Z.of_nat dim - 1 - Z.of_nat d)) mod 3 - 1) (seq 0 dim)) (seq 0 (length ds)) = true)
    by (destruct dim as [|[|[|[|dim]]]]; try discriminate H; injection H as <-; vm_compute; reflexivity).
  apply andb_prop in A as [A1 A2]. split; [now apply Z.eqb_eq|]. intros i d Hi Hd. rewrite forallb_forall in A2. specialize (A2 i ltac:(apply in_seq; lia)).
  rewrite forallb_forall in A2. apply Z.eqb_eq, A2, in_seq. lia.
Qed.

(* ---- examples ---- six processes, in the grid 3 x 2 *)
Definition cd6 (size dim : nat) : list nat := match dim with 0%nat => [] | S k => if ((size =? 6) && (dim =? 2))%nat then [3; 2]%nat else size :: repeat 1%nat k end.
Lemma product_ones k : product (repeat 1%nat k) = 1%nat.
Proof. induction k; cbn; [reflexivity|]. fold (product (repeat 1%nat k)). lia. Qed.
Example C84_dims : dims_spec cd6.
Proof.
  intros size [|k] Hs Hd; [lia|]. unfold cd6. destruct (Nat.eqb_spec size 6) as [->|]; cbn [andb].
  - destruct (Nat.eqb_spec (S k) 2) as [E|].
    + injection E as ->. repeat split. repeat constructor.
    + cbn [length product fold_right]. fold (product (repeat 1%nat k)). rewrite repeat_length, product_ones. repeat split; try lia. constructor; [lia|]. apply Forall_forall. intros x Hx. apply repeat_spec in Hx. lia.
  - cbn [length product fold_right]. fold (product (repeat 1%nat k)). rewrite repeat_length, product_ones. repeat split; try lia. constructor; [lia|]. apply Forall_forall. intros x Hx. apply repeat_spec in Hx. lia.
Qed.
Example C84_grid_example : map (coords_of [3; 2]%nat) (seq 0 6) = [[0; 0]; [0; 1]; [1; 0]; [1; 1]; [2; 0]; [2; 1]]%nat /\
  neighbors [3; 2]%nat 0 = [4; 2; 1; 1]%nat /\ rank_of [3; 2]%nat [-1; 2] = 4%nat.
Proof. repeat split. Qed.
Example C84_domain_example :
  map (domain_of cd6 6 2 1 1 1 [7; 4]) (seq 0 7) =
    [Some [(0, 3); (0, 2)]; Some [(0, 3); (2, 4)]; Some [(3, 5); (0, 2)]; Some [(3, 5); (2, 4)]; Some [(5, 7); (0, 2)]; Some [(5, 7); (2, 4)]; None].
Proof. reflexivity. Qed.
(* two processes, two values in each cell, the values last in the first array; one ghost cell *)
Definition axT : axis := mkAxis 5 2 1.
Definition arrT (c : nat) : array (V := Z) := mkArray [1; 0]%nat [2; ax_size axT c] (fun o => 100 * Z.of_nat c + o).
Example C84_message_example :
  ax_size axT 0 <> ax_size axT 1 /\
  forall v i, 0 <= v < 2 -> stored [axT] [0%nat] i ->
    let r := mkMsg 1 (recv_tag 0) 0 in let s := mkMsg 0 (send_tag 1) (ax_size axT 1 - 2) in
    getitem (transmit 0 1 (m_start s) (m_start r) (arrT 1) (arrT 0)) (v :: i) = write_slab [axT] 0 r (slab 0 s (fun j => getitem (arrT 1) (v :: j))) (fun j => getitem (arrT 0) (v :: j)) i.
Proof.
  split; [vm_compute; discriminate|]. intros v i Hv Hi r s.
  apply (C84_message Z [axT] [0%nat] 0 r s 2 (arrT 1) (arrT 0) v i); try reflexivity; try assumption.
  - repeat constructor; try (cbn; lia). intros [|[|c]] Hc; [vm_compute; discriminate|vm_compute; discriminate|cbn in Hc; lia].
  - repeat constructor.
  - cbn. lia.
  - left. reflexivity.
  - right. left. reflexivity.
  - unfold is_order. cbn. apply perm_swap.
Qed.
Example C84_transmit_example : let x := transmit 0 1 (ax_size axT 1 - 2) 0 (arrT 1) (arrT 0) in
  map (fun k => getitem x [1; k]) (zrange (ax_size axT 0)) <> map (fun k => getitem (arrT 0) [1; k]) (zrange (ax_size axT 0)) /\
  getitem x [1; 0] = getitem (arrT 1) [1; ax_size axT 1 - 2] /\ getitem x [0; 2] = 4.
Proof. split; [vm_compute; discriminate|split; vm_compute; reflexivity]. Qed.
Example C84_directions_example : get_directions 2 = Some [[-1; -1]; [-1; 0]; [-1; 1]; [0; -1]; [0; 0]; [0; 1]; [1; -1]; [1; 0]; [1; 1]].
Proof. reflexivity. Qed.
Print Assumptions C84_ranks.
Print Assumptions C84_domain.
Print Assumptions C84_owner.
Print Assumptions C84_neighbors.
Print Assumptions C84_transmit.
Print Assumptions C84_message.
Print Assumptions C84_ignored_refuted.
Print Assumptions C84_directions.
Print Assumptions C84_directions_order.
