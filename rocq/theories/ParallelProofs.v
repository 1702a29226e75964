(* Lemmas for C57: the domain of a process is a part of the domain of one process. *)
From Verif Require Import PyBase VelocityModel VelocityProofs StencilModel StencilProofs GridModel GridProofs StorageModel
  ExchangeProofs StorageProps LinAlg AlgoModel AlgoProofs GlobalModel GlobalProofs DomainModel DomainProofs DomainProps GeometryModel GeometryProps
  BoundaryModel BoundaryProofs BoundaryProps BoundaryUpdProps VesselProofs ParallelModel.
From Coq Require Import QArith Lqa.
Open Scope Z_scope.

Lemma ax_bounds a c : ax_ok a -> (c < ax_p a)%nat ->
  0 <= ax_lo a c /\ ax_lo a c <= ax_hi a c <= ax_n a /\ ax_h a <= ax_hi a c - ax_lo a c /\
  (ax_lo a c = 0 \/ ax_h a <= ax_lo a c) /\ (ax_hi a c = ax_n a \/ ax_hi a c + ax_h a <= ax_n a).
Proof.
  intros A Hc. pose proof A as (Hn & Hp & Hh & Hs). set (p := Z.of_nat (ax_p a)). assert (0 < p) by lia.
  pose proof (Hs c Hc) as Sc. rewrite (ax_lo_eq a c A Hc), (ax_hi_eq a c A Hc) in *. fold p in Sc |- *.
  pose proof (bound_mono (ax_n a) p 0 (Z.of_nat c) Hn ltac:(lia) ltac:(lia)) as M0. rewrite bound_0 in M0 by lia.
  pose proof (bound_mono (ax_n a) p (Z.of_nat c + 1) p Hn ltac:(lia) ltac:(lia)) as M1. rewrite bound_p in M1 by lia.
  split; [lia|]. split; [lia|]. split; [lia|]. split.
  - destruct c as [|c]; [left; change (Z.of_nat 0) with 0; now rewrite bound_0 by lia|right].
    pose proof (Hs 0%nat ltac:(lia)) as S0. rewrite (ax_lo_eq a 0 A ltac:(lia)), (ax_hi_eq a 0 A ltac:(lia)) in S0. fold p in S0.
    change (Z.of_nat 0) with 0 in S0. rewrite bound_0 in S0 by lia.
    pose proof (bound_mono (ax_n a) p (0 + 1) (Z.of_nat (S c)) Hn ltac:(lia) ltac:(lia)). lia.
  - destruct (Nat.eq_dec (S c) (ax_p a)) as [E|N]; [left; replace (Z.of_nat c + 1) with p by lia; now rewrite bound_p by lia|right].
    set (l := (ax_p a - 1)%nat). pose proof (Hs l ltac:(unfold l; lia)) as S0.
    rewrite (ax_lo_eq a l A ltac:(unfold l; lia)), (ax_hi_eq a l A ltac:(unfold l; lia)) in S0. fold p in S0.
    replace (Z.of_nat l + 1) with p in S0 by (unfold l, p; lia). rewrite bound_p in S0 by lia.
    pose proof (bound_mono (ax_n a) p (Z.of_nat c + 1) (Z.of_nat l) Hn ltac:(lia) ltac:(unfold l; lia)). lia.
Qed.

Section Local.
Variables (g : grid) (ps : list nat).
Hypothesis Hok : Forall ax_ok (proc_axes g ps).
Notation PA := (proc_axes g ps).
Notation lg := (local_grid g ps).
Notation dm := (dim g).

Lemma pa_len : length PA = dm.
Proof using. unfold proc_axes, DomainModel.axes. now rewrite map_length, seq_length. Qed.
Lemma pa_nth d : (d < dm)%nat -> nth d PA dax = proc_axis g ps d.
Proof using. intros H. unfold proc_axes. now rewrite nth_axes. Qed.
Lemma lg_dim c : dim (lg c) = dm.
Proof using. unfold dim at 1. cbn [local_grid g_n]. unfold DomainModel.axes. now rewrite map_length, seq_length. Qed.
Lemma lg_axes c : DomainModel.axes (lg c) = DomainModel.axes g.
Proof using. unfold DomainModel.axes. now rewrite lg_dim. Qed.
Lemma lg_n c d : (d < dm)%nat -> (g_n (lg c))@d = hi g ps c d - lo g ps c d.
Proof using. intros H. cbn [local_grid g_n]. now rewrite nth_axes. Qed.
Lemma lg_h c d : (d < dm)%nat -> (g_h (lg c))@d = (g_h g)@d.
Proof using. intros H. cbn [local_grid g_h]. now rewrite nth_axes. Qed.
Lemma nth_seq_map {A} (f : nat -> A) m i x : (i < m)%nat -> nth i (map f (seq 0 m)) x = f i.
Proof using.
  intros H. rewrite (nth_indep _ x (f 0%nat)) by (now rewrite map_length, seq_length). rewrite map_nth. now rewrite seq_nth.
Qed.
Lemma lg_left c d : (d < dm)%nat -> (g_lab (lg c))@(2 * d) = if lo g ps c d =? 0 then (g_lab g)@(2 * d) else -2.
Proof using.
  intros H. cbn [local_grid g_lab]. rewrite nth_seq_map by lia. unfold local_label. rewrite Nat.even_mul. cbn [Nat.even orb].
  now rewrite Nat.div2_double.
Qed.
Lemma lg_right c d : (d < dm)%nat -> (g_lab (lg c))@(2 * d + 1) = if hi g ps c d =? (g_n g)@d then (g_lab g)@(2 * d + 1) else -2.
Proof using.
  intros H. cbn [local_grid g_lab]. rewrite nth_seq_map by lia. unfold local_label.
  assert (Nat.even (2 * d + 1) = false) as -> by (rewrite Nat.even_add, Nat.even_mul; reflexivity).
  assert (Nat.div2 (2 * d + 1) = d) as -> by (replace (2 * d + 1)%nat with (S (2 * d))%nat by lia; apply Nat.div2_succ_double).
  reflexivity.
Qed.

Section Process.
Variable c : list nat.
Hypothesis Hc : coords_ok PA c.
Lemma c_lt d : (d < dm)%nat -> (nth d c 0 < ax_p (proc_axis g ps d))%nat.
Proof using Hc. intros H. apply coords_ok_iff in Hc. destruct Hc as [_ B]. rewrite pa_len in B. specialize (B d H). now rewrite pa_nth in B. Qed.
Lemma pa_ok d : (d < dm)%nat -> ax_ok (proc_axis g ps d).
Proof using Hok. intros H. rewrite <- pa_nth by exact H. apply (proj1 (Forall_forall _ _) Hok). apply nth_In. now rewrite pa_len. Qed.
Lemma lohi d : (d < dm)%nat ->
  0 <= lo g ps c d /\ lo g ps c d <= hi g ps c d <= (g_n g)@d /\ (g_h g)@d <= hi g ps c d - lo g ps c d /\ 0 <= (g_h g)@d /\
  (lo g ps c d = 0 \/ (g_h g)@d <= lo g ps c d) /\ (hi g ps c d = (g_n g)@d \/ hi g ps c d + (g_h g)@d <= (g_n g)@d).
Proof using Hok Hc.
  intros H. pose proof (ax_bounds _ _ (pa_ok d H) (c_lt d H)) as B. pose proof (pa_ok d H) as (_ & _ & Hh & _).
  unfold lo, hi.
  change (ax_h (proc_axis g ps d)) with ((g_h g)@d) in *. change (ax_n (proc_axis g ps d)) with ((g_n g)@d) in *. tauto.
Qed.

(* the cell of the whole domain *)
Definition ser (i : cell) : cell := map (fun d => i@d + lo g ps c d) (DomainModel.axes g).
Lemma ser_nth i d : (d < dm)%nat -> (ser i)@d = i@d + lo g ps c d.
Proof using. intros H. unfold ser. now rewrite nth_axes. Qed.
Lemma ser_len i : length (ser i) = dm.
Proof using. unfold ser, DomainModel.axes. now rewrite map_length, seq_length. Qed.
Lemma ser_inj i j : length i = dm -> length j = dm -> ser i = ser j -> i = j.
Proof using.
  intros Li Lj E. apply (cell_ext g); [exact Li|exact Lj|]. intros d Hd. pose proof (f_equal (fun x : cell => x@d) E) as X. cbv beta in X.
  rewrite !ser_nth in X by exact Hd. lia.
Qed.
Lemma ser_shift i v : ser (shift (lg c) i v) = shift g (ser i) v.
Proof using.
  apply (cell_ext g); [apply ser_len|apply shift_len|]. intros d Hd. rewrite ser_nth, !shift_nth, ser_nth by (rewrite ?lg_dim; exact Hd). lia.
Qed.
Lemma lg_interior i : interior (lg c) i = true <-> forall d, (d < dm)%nat -> (g_h g)@d + lo g ps c d <= (ser i)@d < (g_h g)@d + hi g ps c d.
Proof using.
  rewrite interior_spec, lg_dim. split; intros H d Hd; specialize (H d Hd); rewrite ?ser_nth in * by exact Hd; rewrite lg_h, lg_n in * by exact Hd; lia.
Qed.
Lemma ser_interior i : interior (lg c) i = true -> interior g (ser i) = true.
Proof using Hok Hc.
  intros H. apply interior_spec. intros d Hd. pose proof (proj1 (lg_interior i) H d Hd). pose proof (lohi d Hd). lia.
Qed.
Lemma inner_lg i : inner PA c i <-> length i = dm /\ interior (lg c) i = true.
Proof using Hok Hc.
  unfold inner. rewrite pa_len. split; intros [L H]; (split; [exact L|]).
  - apply lg_interior. intros d Hd. specialize (H d Hd). rewrite pa_nth in H by exact Hd. unfold ax_inner, ax_size in H.
    change (ax_h (proc_axis g ps d)) with ((g_h g)@d) in H. fold (hi g ps c d) (lo g ps c d) in H. rewrite ser_nth by exact Hd. lia.
  - intros d Hd. pose proof (proj1 (lg_interior i) H d Hd) as B. rewrite pa_nth by exact Hd. unfold ax_inner, ax_size.
    change (ax_h (proc_axis g ps d)) with ((g_h g)@d). fold (hi g ps c d) (lo g ps c d). rewrite ser_nth in B by exact Hd. lia.
Qed.
Lemma lg_total d : (d < dm)%nat -> DomainModel.total (lg c) d = hi g ps c d - lo g ps c d + 2 * (g_h g)@d.
Proof using. intros H. unfold DomainModel.total. now rewrite lg_n, lg_h. Qed.
Lemma stored_lg i : stored PA c i <-> In i (array_cells (lg c)).
Proof using.
  rewrite array_cells_in. unfold stored. rewrite pa_len, lg_dim. split; intros [L H]; (split; [exact L|]); intros d Hd; specialize (H d Hd);
    rewrite ?lg_total, ?pa_nth in * by exact Hd; unfold ax_stored, ax_size in *; 
    change (ax_h (proc_axis g ps d)) with ((g_h g)@d) in *; fold (hi g ps c d) (lo g ps c d) in *; lia.
Qed.
Lemma ser_glob i d : (dm <= 3)%nat -> length i = dm -> (d < dm)%nat -> (globc PA c i)@d = (ser i)@d - (g_h g)@d.
Proof using Hc.
  intros Hdim L Hd. rewrite globc_nth; [|rewrite pa_len; exact Hdim|exact Hc|now rewrite pa_len|now rewrite pa_len]. rewrite pa_nth by exact Hd. unfold glob.
  change (ax_h (proc_axis g ps d)) with ((g_h g)@d). fold (lo g ps c d). rewrite ser_nth by exact Hd. lia.
Qed.

(* ---- the primary box ---- *)
Section Box.
Hypothesis W : wf_grid g.
Hypothesis HL : forall i, (i < 2 * dm)%nat -> (g_lab g)@i <> -2.
Lemma crosses_lg i v d : interior (lg c) i = true -> In v (g_vel g) -> (d < dm)%nat ->
  crosses (lg c) i v d = crosses g (ser i) v d /\
  (crosses g (ser i) v d = true -> T (lg c) i v d = T g (ser i) v d /\ wall_label (lg c) v d = wall_label g v d).
Proof using Hok Hc W HL.
  intros Hi Hv Hd. pose proof (proj1 (lg_interior i) Hi d Hd) as B. pose proof (lohi d Hd) as LH.
  pose proof (wf_v g W v d Hv Hd) as V. pose proof (HL (2 * d) ltac:(lia)) as N0. pose proof (HL (2 * d + 1) ltac:(lia)) as N1.
  apply Z.eqb_neq in N0, N1. rewrite ser_nth in B by exact Hd.
  unfold T, wall_label, crosses, exits, gap, toright. destruct (Z.ltb_spec v@d 0) as [V0|V0].
  - assert ((0 <? v@d) = false) as -> by (apply Z.ltb_ge; lia). cbn [andb orb negb]. rewrite !orb_false_r.
    rewrite lg_left, lg_h, ser_nth by exact Hd. rewrite N0. cbn [negb andb].
    destruct (Z.eqb_spec (lo g ps c d) 0) as [E|E].
    + rewrite N0, E, !Z.add_0_r. cbn [negb andb]. split; [reflexivity|]. intros _. split; reflexivity.
    + change (-2 =? -2) with true. cbn [negb andb]. split; [symmetry; apply Z.ltb_ge; lia|]. intros C. apply Z.ltb_lt in C. lia.
  - cbn [andb orb negb]. destruct (Z.ltb_spec 0 v@d) as [V1|V1]; [|cbn [andb]; split; [reflexivity|discriminate]].
    cbn [andb negb]. rewrite lg_right, lg_h, lg_n, ser_nth by exact Hd. rewrite N1. cbn [negb andb].
    destruct (Z.eqb_spec (hi g ps c d) (g_n g)@d) as [E|E].
    + rewrite N1, E. cbn [negb andb]. replace ((g_n g)@d - lo g ps c d - 1 - (i@d - (g_h g)@d)) with ((g_n g)@d - 1 - (i@d + lo g ps c d - (g_h g)@d)) by lia.
      split; [reflexivity|]. intros _. split; reflexivity.
    + change (-2 =? -2) with true. cbn [negb andb]. split; [symmetry; apply Z.ltb_ge; lia|]. intros C. apply Z.ltb_lt in C. lia.
Qed.
Lemma init_links_lg k i : interior (lg c) i = true -> (k < length (g_vel g))%nat -> init_links (lg c) k i = init_links g k (ser i).
Proof using Hok Hc W HL.
  intros Hi Hk. destruct (nth_error (g_vel g) k) as [v|] eqn:E; [|apply nth_error_None in E; lia].
  rewrite (init_links_cell (lg c) k i v Hi E), (init_links_cell g k (ser i) v (ser_interior i Hi) E), lg_axes.
  assert (X : forall ds l, (forall d, In d ds -> (d < dm)%nat) ->
    fold_left (fun l d => axis_step (lg c) i v d l) ds l = fold_left (fun l d => axis_step g (ser i) v d l) ds l).
  { induction ds as [|d ds IH]; intros l H; [reflexivity|]. cbn [fold_left]. rewrite IH by (intros; apply H; now right). f_equal.
    destruct (crosses_lg i v d Hi (nth_error_In _ _ E) (H d (or_introl eq_refl))) as [E1 E2]. unfold axis_step. rewrite E1.
    destruct (crosses g (ser i) v d); [|reflexivity]. destruct (E2 eq_refl) as [-> ->]. reflexivity. }
  apply X. intros d Hd. now apply axes_in.
Qed.
Lemma lg_wf : (forall d, (d < dm)%nat -> 0 < hi g ps c d - lo g ps c d) -> wf_grid (lg c).
Proof using Hok Hc W.
  clear HL. intros HP. split; [exact (proj1 W)|]. split.
  - intros d Hd. rewrite lg_dim in Hd. rewrite lg_h, lg_n by exact Hd. pose proof (lohi d Hd). specialize (HP d Hd). lia.
  - intros v d Hv Hd. rewrite lg_dim in Hd. rewrite lg_h by exact Hd. apply (wf_v g W v d Hv Hd).
Qed.
Lemma lg_exists : exists D, domain_init (lg c) [] = Some D.
Proof using Hok Hc W.
  clear HL. apply C14_exists. intros d v Hd Hv. rewrite lg_dim in Hd. rewrite lg_n by exact Hd. pose proof (lohi d Hd).
  pose proof (wf_v g W v d Hv Hd). lia.
Qed.
End Box.
End Process.
End Local.

(* The domain of the process c is a part of the domain of one process. *)
Definition part_of (g : grid) (D : dom) (ps c : list nat) (Dc : dom) : Prop :=
  (forall k i, (k < length (g_vel g))%nat -> length i = dim g -> interior (local_grid g ps c) i = true -> d_link Dc k i = d_link D k (ser g ps c i)) /\
  (forall k i, interior (local_grid g ps c) i = false -> l_flag (d_link Dc k i) = valin).
Definition same_labels (g : grid) (ps c : list nat) (Dc : dom) (labels labs : list Z) : Prop :=
  (forall lab, In lab labs -> lab = -2 \/ In lab labels) /\
  (forall k i, (k < length (g_vel g))%nat -> length i = dim g -> interior (local_grid g ps c) i = true ->
     let lab := l_flag (d_link Dc k i) in In lab labels -> In lab labs).
(* No condition reads a value that a condition writes. *)
Definition quiet st r g (ms : list (method * list blink)) : Prop :=
  forall m b p, has ms m b -> In p (loads g (velk st) (symk r) m b) -> ~ written (all_links ms) p.

Lemma written_has ms p : written (all_links ms) p -> exists m b, has ms m b /\ key b = p.
Proof.
  intros (b & Hb & E). unfold all_links in Hb. apply in_concat in Hb. destruct Hb as (l & Hl & Hb).
  apply in_map_iff in Hl. destruct Hl as ([m l'] & <- & Hl). exists m, b. split; [exists l'; split; assumption|exact E].
Qed.
Lemma has_written ms m b : has ms m b -> written (all_links ms) (key b).
Proof.
  intros (l & Hl & Hb). exists b. split; [|reflexivity]. unfold all_links. apply in_concat. exists l. split; [|exact Hb].
  change l with (snd (m, l)). now apply in_map.
Qed.
Lemma nth_axes_q g (f : nat -> Q) d : (d < dim g)%nat -> (map f (DomainModel.axes g))@@d = f d.
Proof. intros H. unfold DomainModel.axes. now rewrite nth_seq_map. Qed.
Section Links.
Variables (dimz : Z) (schemes : list (list Z)) (st : stencil) (r : list Z) (g : grid) (D : dom).
Variables (conds : Z -> list (nat * method)) (labels : list Z) (ms : list (method * list blink)).
Hypothesis S : setting dimz schemes st r g D conds labels ms.
Variable ps : list nat.
Hypothesis Hdim : (dim g <= 3)%nat.
Hypothesis Hok : Forall ax_ok (proc_axes g ps).
Notation PA := (proc_axes g ps).
Notation n := (length (concat schemes)).
Variable c : list nat.
Hypothesis Hc : coords_ok PA c.
Notation lg := (local_grid g ps c).
Notation ser := (ser g ps c).
Variables (Dc : dom) (labs : list Z) (msc : list (method * list blink)).
Hypothesis Sc : setting dimz schemes st r lg Dc conds labs msc.
Hypothesis HP : part_of g D ps c Dc.
Hypothesis HLab : same_labels g ps c Dc labels labs.

Definition tr (b : blink) : blink := mkB (b_k b) (ser (b_cell b)) (b_lab b) (b_dist b) (b_norm b).
Lemma num_lt num w : nth_error (sunique st) num = Some w -> (num < length (g_vel g))%nat.
Proof using S.
  intros H. rewrite (s_vel _ _ _ _ _ _ _ _ _ S), map_length. apply nth_error_Some. congruence.
Qed.
Lemma link_out m b : has msc m b -> has ms m (tr b) /\
  exists i, length i = dim g /\ interior lg i = true /\ b_cell b = before st lg (b_k b) i /\ (b_k b < n)%nat.
Proof using S Hdim Hok Hc Sc HP HLab.
  intros H. apply (boundary_links dimz schemes st (s_nn _ _ _ _ _ _ _ _ _ Sc) (s_build _ _ _ _ _ _ _ _ _ Sc) lg Dc conds labs msc (s_bound _ _ _ _ _ _ _ _ _ Sc)) in H.
  destruct H as (lab & s & vs & i & u & num & w & x & Hlab & N1 & N2 & Hm & Hs & Hi & Hw & Ew & Hx & Hf & ->).
  pose proof (num_lt num w Hw) as Hnum. apply array_cells_in in Hx. destruct Hx as [Lx _]. rewrite lg_dim in Lx.
  assert (Hin : interior lg x = true).
  { destruct (interior lg x) eqn:E; [reflexivity|]. exfalso. apply (s_val _ _ _ _ _ _ _ _ _ Sc). rewrite (proj2 HP num x E) in Hf. now rewrite Hf. }
  assert (Ek : velk st (row st s i) = vel_list u) by (eapply row_velk; eauto).
  pose proof (proj1 HP num x Hnum Lx Hin) as EL. split.
  - apply (boundary_links dimz schemes st (s_nn _ _ _ _ _ _ _ _ _ S) (s_build _ _ _ _ _ _ _ _ _ S) g D conds labels ms (s_bound _ _ _ _ _ _ _ _ _ S)).
    exists lab, s, vs, i, u, num, w, (ser x). unfold tr. cbn [b_k b_cell b_lab b_dist b_norm]. rewrite ser_shift, EL. rewrite EL in Hf.
    destruct (proj1 HLab lab Hlab) as [C|Hl]; [contradiction|].
    repeat (split; [first [assumption|now symmetry]|]). split; [|split; [assumption|reflexivity]].
    apply array_cells_in. split; [apply ser_len|]. intros d Hd. pose proof (proj1 (interior_spec g _) (ser_interior g ps Hok c Hc x Hin) d Hd).
    pose proof (lohi g ps Hok c Hc d Hd). unfold DomainModel.total. lia.
  - exists x. cbn [b_k b_cell]. split; [exact Lx|]. split; [exact Hin|]. split; [unfold before; now rewrite Ek, Ew|].
    pose proof (build_facts dimz schemes st (s_nn _ _ _ _ _ _ _ _ _ S) (s_build _ _ _ _ _ _ _ _ _ S)) as BF.
    assert (L : length (concat (sv st)) = n) by (rewrite <- (b_v _ _ _ BF), <- concat_map, map_length; reflexivity).
    rewrite <- L. assert (X : nth_error (concat (sv st)) (row st s i) = Some u) by (unfold row; eapply concat_nth_inv; eauto).
    apply nth_error_Some. congruence.
Qed.
Lemma link_in m b i : has ms m b -> length i = dim g -> interior lg i = true -> b_cell b = before st g (b_k b) (ser i) ->
  exists b', has msc m b' /\ tr b' = b /\ b_cell b' = before st lg (b_k b) i.
Proof using S Hdim Hok Hc Sc HP HLab.
  intros H Li Hi E. apply (boundary_links dimz schemes st (s_nn _ _ _ _ _ _ _ _ _ S) (s_build _ _ _ _ _ _ _ _ _ S) g D conds labels ms (s_bound _ _ _ _ _ _ _ _ _ S)) in H.
  destruct H as (lab & s & vs & j & u & num & w & x & Hlab & N1 & N2 & Hm & Hs & Hj & Hw & Ew & Hx & Hf & ->).
  pose proof (num_lt num w Hw) as Hnum. apply array_cells_in in Hx. destruct Hx as [Lx _]. cbn [b_k b_cell] in E |- *.
  assert (Ek : velk st (row st s j) = vel_list u) by (eapply row_velk; eauto).
  assert (x = ser i).
  { apply (cell_ext g); [exact Lx|apply ser_len|]. intros d Hd. pose proof (f_equal (fun y : cell => y@d) E) as X. cbv beta in X.
    unfold before in X. rewrite !shift_nth, Ek, Ew in X by exact Hd. lia. }
  subst x. pose proof (proj1 HP num i Hnum Li Hi) as EL.
  exists (mkB (row st s j) (shift lg i (vel_list w)) lab (l_dist (d_link Dc num i)) (l_norm (d_link Dc num i))).
  split; [|split; [unfold tr; cbn [b_k b_cell b_lab b_dist b_norm]; rewrite ser_shift, EL; reflexivity|cbn [b_cell]; unfold before; now rewrite Ek, Ew]].
  apply (boundary_links dimz schemes st (s_nn _ _ _ _ _ _ _ _ _ Sc) (s_build _ _ _ _ _ _ _ _ _ Sc) lg Dc conds labs msc (s_bound _ _ _ _ _ _ _ _ _ Sc)).
  exists lab, s, vs, j, u, num, w, i. rewrite <- EL in Hf.
  assert (Hl : In lab labs) by (rewrite <- Hf; apply (proj2 HLab num i Hnum Li Hi); rewrite Hf; exact Hlab).
  repeat (split; [assumption|]). split; [|split; [assumption|reflexivity]].
  apply array_cells_in. rewrite lg_dim. split; [exact Li|]. intros d Hd. pose proof (proj1 (interior_spec lg i) Hi d ltac:(rewrite lg_dim; exact Hd)) as B.
  rewrite lg_h in B by exact Hd. pose proof (lohi g ps Hok c Hc d Hd). unfold DomainModel.total. rewrite lg_h by exact Hd. lia.
Qed.
Lemma written_out k y : written (all_links msc) (k, y) -> written (all_links ms) (k, ser y).
Proof using S Hdim Hok Hc Sc HP HLab.
  intros H. apply written_has in H. destruct H as (m & b & Hb & E). unfold key in E. injection E as <- <-.
  apply link_out in Hb. destruct Hb as [Hb _]. exists (tr b). split; [|reflexivity].
  destruct Hb as (L & HL & Hb). unfold all_links. apply in_concat. exists L. split; [|exact Hb]. change L with (snd (m, L)). now apply in_map.
Qed.

(* ---- the values ---- *)
Section Values.
Variable K : arith.
Variable qk : Q -> K.
Variable G : list Z -> vec K.
Definition wrapg (x : cell) : list Z := map (fun d => (x@d - (g_h g)@d) mod (g_n g)@d) (DomainModel.axes g).
Definition gfield : dfield K := fun k x => G (wrapg x) k.
Variable F : fields K.
Hypothesis HF : holds K PA n F G.

Lemma upd_val j k : In j (array_cells lg) -> (k < n)%nat -> update PA F c j k = gfield k (ser j).
Proof using Hdim Hok Hc HF.
  intros Hj Hk. apply stored_lg in Hj.
  destruct (C12_ghost_exchange _ PA F) as (O & U & _); [rewrite pa_len; exact Hdim|exact Hok|].
  destruct (O c j Hc Hj) as (c' & i' & Hc' & Hi' & Sm). rewrite (U _ _ _ _ Hc Hj Hc' Hi' Sm), (HF c' i' Hc' Hi' k Hk).
  unfold gfield. f_equal. pose proof Hi' as Hi2. apply inner_lg in Hi2; [|exact Hok|exact Hc']. destruct Hi2 as [Li Hin].
  destruct Hj as [Lj _]. rewrite pa_len in Lj.
  assert (Lw : length (wrapg (ser j)) = dim g) by (unfold wrapg, DomainModel.axes; now rewrite map_length, seq_length).
  assert (Lg : length (globc PA c' i') = dim g) by (rewrite <- pa_len with (ps := ps); apply globc_length; [rewrite pa_len; exact Hdim|exact Hc'|now rewrite pa_len]).
  apply (cell_ext g); [exact Lg|exact Lw|]. intros d Hd.
  pose proof (Sm d ltac:(rewrite pa_len; exact Hd)) as E. cbv zeta in E.
  rewrite <- !globc_nth in E; try (rewrite ?pa_len; assumption).
  rewrite ser_glob in E by assumption. unfold wrapg. rewrite nth_axes by exact Hd. rewrite pa_nth in E by exact Hd.
  change (ax_n (proc_axis g ps d)) with ((g_n g)@d) in E. rewrite E, ser_glob by assumption.
  pose proof (proj1 (interior_spec g _) (ser_interior g ps Hok c' Hc' i' Hin) d Hd). rewrite Z.mod_small by lia. reflexivity.
Qed.

Lemma sym_lt m b : has msc m b -> (symk r (b_k b) < n)%nat.
Proof using Sc.
  pose proof Sc as [Hn Hb Hr _ _ HB _ _]. intros H.
  apply (boundary_links dimz schemes st Hn Hb lg Dc conds labs msc HB) in H.
  destruct H as (lab & s & vs & i & v & num & w & x & L1 & L2 & L3 & L4 & Hs & Hi & Hw & Ew & Hx & Hf & ->). cbn [b_k].
  destruct (C07_lemma dimz schemes st None Hn Hb ltac:(intros; discriminate)) as [_ T].
  destruct (T r Hr) as (_ & T2 & _). destruct (T2 s i vs v Hs Hi) as (j & u & Hj & Eu & En).
  unfold symk. pose proof (build_facts dimz schemes st Hn Hb) as BF.
  assert (Er : forall k, row st s k = (length (concat (firstn s schemes)) + k)%nat).
  { intros k. unfold row. rewrite <- (b_v _ _ _ BF), firstn_map, <- concat_map. now rewrite map_length. }
  rewrite Er, (nth_error_nth _ _ _ En), Nat2Z.id, <- Er.
  assert (L : length (concat (sv st)) = n) by (rewrite <- (b_v _ _ _ BF), <- concat_map, map_length; reflexivity).
  rewrite <- L. assert (X : nth_error (concat (sv st)) (row st s j) = Some u) by (unfold row; eapply concat_nth_inv; eauto).
  apply nth_error_Some. congruence.
Qed.
Lemma near_i i w : interior lg i = true -> (forall d, (d < dim g)%nat -> Z.abs w@d <= (g_h g)@d) -> In (shift lg i w) (array_cells lg).
Proof using Hdim.
  intros Hi Hw. apply array_cells_in. split; [apply shift_len|]. rewrite lg_dim. intros d Hd. rewrite shift_nth by (rewrite lg_dim; exact Hd).
  pose proof (proj1 (lg_interior g ps c i) Hi d Hd) as B. rewrite ser_nth in B by exact Hd. specialize (Hw d Hd).
  rewrite lg_total by exact Hd. lia.
Qed.
Hypothesis Hv : forall k d, (k < n)%nat -> (d < dim g)%nat -> Z.abs (velk st k)@d <= (g_h g)@d.
Lemma loads_stored m b p : has msc m b -> In p (loads lg (velk st) (symk r) m b) -> (fst p < n)%nat /\ In (snd p) (array_cells lg).
Proof using S Hdim Hok Hc Sc HP HLab Hv.
  intros H. pose proof (sym_lt m b H) as SL. destruct (link_out m b H) as [_ (i & Li & Hi & Eb & Hk)].
  assert (A0 : In (ahead lg (velk st) b) (array_cells lg)).
  { unfold ahead. rewrite Eb. replace (shift lg (before st lg (b_k b) i) (velk st (b_k b))) with (shift lg i (map (fun _ => 0) (DomainModel.axes g))).
    - apply near_i; [exact Hi|]. intros d Hd. rewrite nth_axes by exact Hd. pose proof (lohi g ps Hok c Hc d Hd). lia.
    - apply (cell_ext lg); [apply shift_len|apply shift_len|]. rewrite lg_dim. intros d Hd. unfold before. rewrite !shift_nth, nth_opp by (rewrite lg_dim; exact Hd).
      rewrite nth_axes by exact Hd. lia. }
  assert (A2 : In (ahead2 lg (velk st) b) (array_cells lg)).
  { unfold ahead2. rewrite Eb. replace (shift lg (before st lg (b_k b) i) (map (fun x => 2 * x) (velk st (b_k b)))) with (shift lg i (velk st (b_k b))).
    - apply near_i; [exact Hi|]. intros d Hd. apply Hv; assumption.
    - apply (cell_ext lg); [apply shift_len|apply shift_len|]. rewrite lg_dim. intros d Hd. unfold before. rewrite !shift_nth, nth_opp by (rewrite lg_dim; exact Hd).
      pose proof (map_nth (fun x => 2 * x) (velk st (b_k b)) 0 d) as MN. cbv beta in MN. change (2 * 0) with 0 in MN. rewrite MN. lia. }
  assert (AA : forall a, In (ahead_axis lg (velk st) a b) (array_cells lg)).
  { intros a. unfold ahead_axis. rewrite Eb, lg_axes.
    replace (shift lg (before st lg (b_k b) i) (map (fun d => if Nat.eqb d a then (velk st (b_k b))@d else 0) (DomainModel.axes g)))
      with (shift lg i (map (fun d => if Nat.eqb d a then 0 else - (velk st (b_k b))@d) (DomainModel.axes g))).
    - apply near_i; [exact Hi|]. intros d Hd. rewrite nth_axes by exact Hd. pose proof (Hv (b_k b) d Hk Hd). destruct (Nat.eqb d a); lia.
    - apply (cell_ext lg); [apply shift_len|apply shift_len|]. rewrite lg_dim. intros d Hd. unfold before. rewrite !shift_nth, nth_opp by (rewrite lg_dim; exact Hd).
      rewrite !nth_axes by exact Hd. destruct (Nat.eqb d a); lia. }
  unfold loads, iload0, iload1. destruct m; cbn [In]; (destruct (near b); cbn [In]; intros [<-|[<-|[]]] || intros [<-|[]]); cbn [fst snd]; auto.
Qed.
Lemma loads_tr m b : loads g (velk st) (symk r) m (tr b) = map (fun p => (fst p, ser (snd p))) (loads lg (velk st) (symk r) m b).
Proof using.
  unfold loads, iload0, iload1, ahead_axis, ahead, ahead2, near, tr. cbn [b_k b_cell b_dist].
  destruct m; cbn [map fst snd]; rewrite ?ser_shift, ?lg_axes; try reflexivity; (destruct (Qltb _ _); cbn [map fst snd]; rewrite ?ser_shift; reflexivity).
Qed.
Lemma bcoord_tr b d : (d < dim g)%nat -> (bcoord st lg b d == bcoord st g (tr b) d)%Q.
Proof using.
  intros Hd. unfold bcoord. cbn [tr b_cell b_k b_dist].
  apply Qplus_comp; [|reflexivity]. rewrite !point_nth by (rewrite ?lg_dim; exact Hd).
  rewrite ser_nth by exact Hd. cbn [local_grid g_x0 g_dx]. rewrite nth_axes_q by exact Hd. rewrite inject_Z_plus. ring.
Qed.
Variable phi : Z -> list Q -> nat -> K.
Hypothesis Hphi : forall lab x y k, Forall2 Qeq x y -> phi lab x k = phi lab y k.
Lemma feq_tr b k : feq_of st phi lg b k = feq_of st phi g (tr b) k.
Proof using Hphi.
  unfold feq_of. cbn [tr b_lab]. apply Hphi. unfold wall_point. rewrite lg_axes.
  assert (X : forall ds, (forall d, In d ds -> (d < dim g)%nat) -> Forall2 Qeq (map (bcoord st lg b) ds) (map (bcoord st g (tr b)) ds)).
  { induction ds as [|d ds IH]; intros H; [constructor|]. cbn [map]. constructor; [|apply IH; intros; apply H; now right].
    apply bcoord_tr. apply H; now left. }
  apply X. intros d Hd. now apply axes_in.
Qed.
Hypothesis HQ : quiet st r g ms.
Lemma pbc_value be i k : length i = dim g -> interior lg i = true -> (k < n)%nat ->
  boundary_condition K qk lg (velk st) (symk r) (feq_of st phi lg) be msc (fun k x => update PA F c x k) k (before st lg k i) =
  boundary_condition K qk g (velk st) (symk r) (feq_of st phi g) be ms gfield k (before st g k (ser i)).
Proof using All.
  intros Li Hi Hk.
  assert (Eb : ser (before st lg k i) = before st g k (ser i)) by (unfold before; apply ser_shift).
  assert (Sb : In (before st lg k i) (array_cells lg)).
  { unfold before. apply near_i; [exact Hi|]. intros d Hd. rewrite nth_opp. pose proof (Hv k d Hk Hd). lia. }
  destruct (written_dec (all_links ms) (k, before st g k (ser i))) as [Wr|N].
  - apply written_has in Wr. destruct Wr as (m & b & Hb & E). unfold key in E. injection E as <- Ec.
    destruct (link_in m b i Hb Li Hi Ec) as (b' & Hb' & Et & Ec').
    assert (Ek : b_k b' = b_k b) by (rewrite <- Et; reflexivity).
    rewrite <- Ec, <- Ec'. rewrite <- Ek at 1.
    rewrite (pass_value K qk g (velk st) (symk r) (feq_of st phi g) be ms gfield m b (links_nodup _ _ _ _ _ _ _ _ _ S) Hb (links_one _ _ _ _ _ _ _ _ _ S)) by (intros p Hp; apply (HQ m b p Hb Hp)).
    rewrite (pass_value K qk lg (velk st) (symk r) (feq_of st phi lg) be msc _ m b' (links_nodup _ _ _ _ _ _ _ _ _ Sc) Hb' (links_one _ _ _ _ _ _ _ _ _ Sc)).
    + assert (R : rhs K (symk r) (feq_of st phi lg) m b' = rhs K (symk r) (feq_of st phi g) m b).
      { rewrite <- Et. unfold rhs. cbn [tr b_k]. destruct m; rewrite ?feq_tr; reflexivity. }
      assert (A : forall p, In p (loads lg (velk st) (symk r) m b') -> at_ K (fun k x => update PA F c x k) p = at_ K gfield (fst p, ser (snd p))).
      { intros p Hp. destruct (loads_stored m b' p Hb' Hp) as [A1 A2]. unfold at_. cbn [fst snd]. apply upd_val; assumption. }
      rewrite <- Et in R |- *. unfold bvalue. cbv zeta. rewrite R. cbn [tr b_dist].
      pose proof (f_equal (fun l => nth 0 l (0%nat, [])) (loads_tr m b')) as L0. pose proof (f_equal (fun l => nth 1 l (0%nat, [])) (loads_tr m b')) as L1.
      unfold loads in A, L0, L1. destruct m; cbn [map nth] in L0, L1; rewrite L0; rewrite ?L1;
        repeat (rewrite A by (cbn [In]; tauto)); reflexivity.
    + intros p Hp C. destruct p as [k' y]. apply written_out in C. apply (HQ m b (k', ser y) Hb); [|exact C].
      rewrite <- Et, loads_tr. apply in_map_iff. exists (k', y). auto.
  - rewrite (pass_frame K qk g _ _ _ be ms) by exact N. rewrite (pass_frame K qk lg).
    + rewrite upd_val by assumption. now rewrite Eb.
    + intros C. apply written_out in C. rewrite Eb in C. contradiction.
Qed.
End Values.
End Links.
