(* The parallel time step refines the step on the whole periodic domain. *)
From Verif Require Import PyBase VelocityModel GridModel GridProofs StorageModel StorageProofs ExchangeProofs LinAlg AlgoModel AlgoProofs GlobalModel.
From Coq Require Import Sorting.Permutation.
Open Scope Z_scope.

Lemma list_eqb_spec l : forall m, list_eqb l m = true <-> l = m.
Proof.
  induction l as [|x l IH]; intros [|y m]; cbn; split; try discriminate; try reflexivity; try congruence.
  - intros H. apply andb_prop in H. destruct H as [H1 H2]. apply Z.eqb_eq in H1. apply IH in H2. congruence.
  - intros [= -> ->]. rewrite Z.eqb_refl. apply IH. reflexivity.
Qed.
Lemma Forall2_length {A B} (R : A -> B -> Prop) l m : Forall2 R l m -> length l = length m.
Proof. induction 1; cbn; congruence. Qed.
Lemma map2_length {A B C} (f : A -> B -> C) l m : length l = length m -> length (map2 f l m) = length l.
Proof. intros H. unfold map2. rewrite map_length, combine_length. lia. Qed.
Lemma map2_nth {A B C} (f : A -> B -> C) a b c : forall l m d, length l = length m -> (d < length l)%nat ->
  nth d (map2 f l m) c = f (nth d l a) (nth d m b).
Proof.
  induction l as [|x l IH]; intros [|y m] d H Hd; cbn in *; try lia.
  destruct d as [|d]; [reflexivity|]. apply IH; lia.
Qed.
Lemma zrange_in lo hi x : In x (zrange lo hi) <-> lo <= x < hi.
Proof.
  unfold zrange. rewrite in_map_iff. split.
  - intros (k & <- & H). apply in_seq in H. lia.
  - intros H. exists (Z.to_nat (x - lo)). split; [lia|]. apply in_seq. lia.
Qed.
Lemma nested_in : forall ranges x, In x (nested ranges) <-> Forall2 (fun y r => In y r) x ranges.
Proof.
  induction ranges as [|r t IH]; intros x; cbn.
  - split; [intros [<-|[]]; constructor|intros H; inversion H; auto].
  - rewrite in_flat_map. split.
    + intros (y & Hy & H). apply in_map_iff in H. destruct H as (z & <- & Hz). constructor; [exact Hy|]. apply IH. exact Hz.
    + intros H. inversion H as [|y r' z t' Hy Hz]; subst. exists y. split; [exact Hy|]. apply in_map. apply IH. exact Hz.
Qed.
Lemma nested_NoDup : forall ranges, Forall (fun r => NoDup r) ranges -> NoDup (nested ranges).
Proof.
  induction ranges as [|r t IH]; intros H; cbn; [constructor; [intros []|constructor]|].
  inversion H as [|? ? Hr Ht]; subst. specialize (IH Ht). induction Hr as [|x r Hx Hr IHr]; [constructor|].
  cbn. inversion H; subst.
  assert (D : NoDup (flat_map (fun x => map (cons x) (nested t)) r)).
  { apply IHr. constructor; [exact Hr|exact Ht]. }
  revert D. assert (D1 : NoDup (map (cons x) (nested t))).
  { clear -IH. induction IH as [|y l Hy _ IHl]; [constructor|]. cbn. constructor; [|exact IHl].
    intros C. apply in_map_iff in C. destruct C as (z & E & Hz). congruence. }
  assert (N : forall z, In z (map (cons x) (nested t)) -> ~ In z (flat_map (fun x => map (cons x) (nested t)) r)).
  { intros z Hz C. apply in_map_iff in Hz. destruct Hz as (z1 & <- & _). apply in_flat_map in C.
    destruct C as (y & Hy & C). apply in_map_iff in C. destruct C as (z2 & E & _). congruence. }
  revert D1 N. generalize (map (cons x) (nested t)) (flat_map (fun x => map (cons x) (nested t)) r). clear.
  intros l m Hl Hd Hm. induction Hl as [|y l Hy Hl IH]; [exact Hm|]. cbn. constructor.
  - intros C. apply in_app_iff in C. destruct C as [C|C]; [contradiction|]. apply (Hd y); [left; reflexivity|exact C].
  - apply IH. intros z Hz. apply Hd. right. exact Hz.
Qed.

Section Global.
Variable K : arith.
Variable axes : list axis.
Variable vel : nat -> list Z.
(* number of velocities and local step of one cell *)
Variable n : nat.
Variable L : vec K -> vec K.
Notation dim := (length axes).

Hypothesis Hdim : (length axes <= 3)%nat.
Hypothesis Hok : Forall ax_ok axes.

Definition vel_ok : Prop := forall k, (k < n)%nat -> length (vel k) = dim /\
  forall d, (d < dim)%nat -> Z.abs (nth d (vel k) 0) <= ax_h (nth d axes dax).
Hypothesis Hvel : vel_ok.

(* A cell of the whole domain; periodic wrapping. *)
Definition gcell (g : list Z) : Prop := length g = dim /\
  forall d, (d < dim)%nat -> 0 <= nth d g 0 < ax_n (nth d axes dax).
Definition wrap (g : list Z) : list Z := map2 Z.modulo g (map ax_n axes).
(* The global cell of a local index. *)
Definition globc (c : list nat) (i : list Z) : list Z :=
  map2 (fun ac x => glob (fst ac) (snd ac) x) (combine axes c) i.

Lemma nth_combine {A B} (l : list A) (m : list B) x y : length l = length m ->
  forall d, (d < length l)%nat -> nth d (combine l m) (x, y) = (nth d l x, nth d m y).
Proof. intros H d Hd. apply combine_nth. exact H. Qed.

Lemma globc_length c i : coords_ok axes c -> length i = dim -> length (globc c i) = dim.
Proof.
  intros Hc Hi. apply coords_ok_iff in Hc. destruct Hc as [Lc _].
  unfold globc. rewrite map2_length; rewrite combine_length; lia.
Qed.
Lemma globc_nth c i d : coords_ok axes c -> length i = dim -> (d < dim)%nat ->
  nth d (globc c i) 0 = glob (nth d axes dax) (nth d c 0%nat) (nth d i 0).
Proof.
  intros Hc Hi Hd. apply coords_ok_iff in Hc. destruct Hc as [Lc _].
  unfold globc. rewrite (map2_nth _ (dax, 0%nat) 0) by (rewrite combine_length; lia).
  rewrite nth_combine by lia. reflexivity.
Qed.
Lemma axis_inner_range x c : (c < ax_p x)%nat -> ax_ok x -> forall y, ax_inner x c y -> 0 <= glob x c y < ax_n x.
Proof.
  intros Hc Hx y Hy. unfold ax_inner, ax_size, glob in *.
  pose proof (ax_lo_eq x c Hx Hc) as E1. pose proof (ax_hi_eq x c Hx Hc) as E2.
  destruct Hx as (Hn & Hp & Hh & _).
  set (p := Z.of_nat (ax_p x)) in *.
  pose proof (Z.div_mod (ax_n x) p ltac:(lia)) as Ed. pose proof (Z.mod_pos_bound (ax_n x) p ltac:(lia)) as Em.
  assert (Eq : 0 <= ax_n x / p) by (apply Z.div_pos; lia).
  assert (B1 : 0 <= ax_lo x c) by (rewrite E1; unfold bound; nia).
  assert (B2 : ax_hi x c <= ax_n x) by (rewrite E2; unfold bound; nia).
  lia.
Qed.
Lemma globc_gcell c i : coords_ok axes c -> inner axes c i -> gcell (globc c i).
Proof.
  intros Hc [Li Hi]. split; [apply globc_length; assumption|].
  intros d Hd. rewrite globc_nth by assumption.
  pose proof (proj1 (coords_ok_iff axes c) Hc) as [_ Hcd].
  apply axis_inner_range; [apply Hcd; exact Hd|apply Hokd; assumption|apply Hi; exact Hd].
Qed.
Lemma gcell_globc g : gcell g -> exists c i, coords_ok axes c /\ inner axes c i /\ globc c i = g.
Proof.
  intros [Lg Hg].
  assert (E : forall d, exists cx : nat * Z, (d < dim)%nat ->
    (fst cx < ax_p (nth d axes dax))%nat /\ ax_inner (nth d axes dax) (fst cx) (snd cx) /\
    glob (nth d axes dax) (fst cx) (snd cx) = nth d g 0).
  { intros d. destruct (Nat.lt_ge_cases d dim) as [Ld|Ld]; [|exists (0%nat, 0%Z); lia].
    destruct (inner_exists (nth d axes dax) (nth d g 0) (Hokd axes Hok d Ld) (Hg d Ld)) as (c & x & H1 & H2 & H3).
    exists (c, x). intros _. cbn. auto. }
  assert (E2 : forall k, exists l : list (nat * Z), length l = k /\ forall d, (d < k)%nat -> (d < dim)%nat ->
    (fst (nth d l (0%nat, 0%Z)) < ax_p (nth d axes dax))%nat /\
    ax_inner (nth d axes dax) (fst (nth d l (0%nat, 0%Z))) (snd (nth d l (0%nat, 0%Z))) /\
    glob (nth d axes dax) (fst (nth d l (0%nat, 0%Z))) (snd (nth d l (0%nat, 0%Z))) = nth d g 0).
  { induction k as [|k (l & Ll & Hl)]; [exists []; split; [reflexivity|lia]|].
    destruct (E k) as [cx Hcx]. exists (l ++ [cx]). split; [rewrite app_length; cbn; lia|].
    intros d Hd Hd'. destruct (Nat.eq_dec d k) as [->|N].
    - rewrite app_nth2 by lia. rewrite Ll, Nat.sub_diag. cbn. apply Hcx. exact Hd'.
    - rewrite app_nth1 by lia. apply Hl; lia. }
  destruct (E2 dim) as (l & Ll & Hl).
  assert (N1 : forall d, nth d (map fst l) 0%nat = fst (nth d l (0%nat, 0%Z))) by (intros; apply (map_nth fst l (0%nat, 0%Z))).
  assert (N2 : forall d, nth d (map snd l) 0 = snd (nth d l (0%nat, 0%Z))) by (intros; apply (map_nth snd l (0%nat, 0%Z))).
  exists (map fst l), (map snd l).
  assert (Hc : coords_ok axes (map fst l)).
  { apply coords_ok_iff. rewrite map_length. split; [exact Ll|]. intros d Hd. rewrite N1. apply Hl; exact Hd. }
  assert (Hi : inner axes (map fst l) (map snd l)).
  { split; [rewrite map_length; exact Ll|]. intros d Hd. rewrite N1, N2. apply Hl; exact Hd. }
  split; [exact Hc|]. split; [exact Hi|].
  apply (nth_ext_len _ _ 0); [rewrite globc_length; [lia|exact Hc|apply Hi]|].
  intros d Hd. rewrite globc_length in Hd; [|exact Hc|apply Hi].
  rewrite globc_nth; [|exact Hc|apply Hi|exact Hd]. rewrite N1, N2. apply Hl; exact Hd.
Qed.

(* The step on the whole periodic domain. *)
Definition gstep (G : list Z -> vec K) : list Z -> vec K := fun g =>
  L (fun k => G (wrap (shift_cell vel k g)) k).

(* The arrays of the processes hold the values of the global field G. *)
Definition holds (P : fields K) (G : list Z -> vec K) : Prop :=
  forall c i, coords_ok axes c -> inner axes c i -> agree K n (P c i) (G (globc c i)).

Lemma shift_nth k i d : (k < n)%nat -> length i = dim -> (d < dim)%nat ->
  nth d (shift_cell vel k i) 0 = nth d i 0 - nth d (vel k) 0.
Proof.
  intros Hk Hi Hd. destruct (Hvel k Hk) as [Lv _]. unfold shift_cell. apply map2_nth; lia.
Qed.
Lemma shift_length k i : (k < n)%nat -> length i = dim -> length (shift_cell vel k i) = dim.
Proof. intros Hk Hi. destruct (Hvel k Hk) as [Lv _]. unfold shift_cell. rewrite map2_length; lia. Qed.
Lemma wrap_length g : length g = dim -> length (wrap g) = dim.
Proof. intros H. unfold wrap. rewrite map2_length; rewrite ?map_length; exact H. Qed.
Lemma wrap_nth g d : length g = dim -> (d < dim)%nat -> nth d (wrap g) 0 = nth d g 0 mod ax_n (nth d axes dax).
Proof.
  intros H Hd. unfold wrap. rewrite (map2_nth _ 0 0) by (rewrite ?map_length; lia).
  change 0 with (ax_n dax) at 2. rewrite map_nth. reflexivity.
Qed.

(* What the kernel reads after the exchange. *)
Lemma read_shifted P G c i k : holds P G -> coords_ok axes c -> inner axes c i -> (k < n)%nat ->
  update axes P c (shift_cell vel k i) k = G (wrap (shift_cell vel k (globc c i))) k.
Proof.
  intros HP Hc Hi Hk.
  assert (Li : length i = dim) by apply Hi.
  assert (Hs : stored axes c (shift_cell vel k i)).
  { split; [apply shift_length; assumption|]. intros d Hd. rewrite shift_nth by assumption.
    pose proof (proj2 Hi d Hd) as H. unfold ax_inner in H. pose proof (proj2 (Hvel k Hk) d Hd). unfold ax_stored. lia. }
  destruct (owner_of_cell axes Hdim Hok c _ Hc Hs) as (c' & i' & Hc' & Hi' & Hsame).
  rewrite (update_spec axes Hdim Hok P c _ c' i' Hc Hs Hc' Hi' Hsame).
  rewrite (HP c' i' Hc' Hi' k Hk). f_equal. 
  assert (Li' : length i' = dim) by apply Hi'.
  apply (nth_ext_len _ _ 0).
  { rewrite globc_length, wrap_length; [reflexivity| |assumption|assumption].
    apply shift_length; [exact Hk|]. apply globc_length; assumption. }
  intros d Hd. rewrite globc_length in Hd by assumption.
  assert (Lg : length (globc c i) = dim) by (apply globc_length; assumption).
  rewrite wrap_nth by (try assumption; apply shift_length; assumption).
  rewrite shift_nth by assumption. rewrite !globc_nth by assumption.
  pose proof (Hsame d Hd) as E. cbn zeta in E. rewrite shift_nth in E by assumption.
  pose proof (globc_gcell c' i' Hc' Hi') as [_ R]. specialize (R d Hd). rewrite globc_nth in R by assumption.
  rewrite <- (Z.mod_small _ _ R). rewrite <- E. f_equal. unfold glob. lia.
Qed.

Lemma loop_cells_spec c i : coords_ok axes c -> (In i (loop_cells axes c) <-> inner axes c i).
Proof.
  intros Hc. pose proof (proj1 (coords_ok_iff axes c) Hc) as [Lc _].
  unfold loop_cells. rewrite nested_in. split.
  - intros H. pose proof (Forall2_length _ _ _ H) as Le. rewrite map2_length in Le by lia.
    split; [exact Le|]. intros d Hd.
    pose proof (Forall2_nth _ _ _ 0 [] H d ltac:(lia)) as E. cbn in E.
    rewrite (map2_nth _ dax 0%nat) in E by lia. apply zrange_in in E. exact E.
  - intros [Le H]. apply (Forall2_of_nth _ _ _ 0 []); [rewrite map2_length; lia|].
    intros d Hd. rewrite (map2_nth _ dax 0%nat) by lia. apply zrange_in. apply H. lia.
Qed.
Lemma in_loop_spec c i : coords_ok axes c -> (in_loop axes c i = true <-> inner axes c i).
Proof.
  intros Hc. rewrite <- loop_cells_spec by exact Hc. unfold in_loop. rewrite existsb_exists. split.
  - intros (y & Hy & E). apply list_eqb_spec in E. subst. exact Hy.
  - intros H. exists i. split; [exact H|]. apply list_eqb_spec. reflexivity.
Qed.

(* A kernel program is right when it computes the local step of the shifted values. *)
Definition computes (p : list (stmt K)) : Prop :=
  forall v, agree K n (vfn (run p v)) (L (vf v)).
Definition numpy_right (p : list (stmt K)) : Prop :=
  forall nb (inn : list Z -> bool) F m u x, inn x = true ->
    exists fn mx ux, fst (numpy_run nb inn p (F, (m, u))) x =
      vfn (run p (mkView (fun k => F (nb k x) k) fn mx ux)).

Hypothesis HL : forall f f', agree K n f f' -> agree K n (L f) (L f').

Lemma step_value P G c i : holds P G -> coords_ok axes c -> inner axes c i ->
  agree K n (L (fun k => update axes P c (shift_cell vel k i) k)) (gstep G (globc c i)).
Proof.
  intros HP Hc Hi j Hj. unfold gstep. apply HL; [|exact Hj].
  intros k Hk. apply read_shifted; assumption.
Qed.

Lemma two_step_holds p m0 u0 st G : computes p -> holds (fst st) G ->
  holds (fst (two_step axes vel p m0 u0 st)) (gstep G).
Proof.
  intros Hp HP c i Hc Hi. unfold two_step. cbn [fst].
  rewrite <- cython_loop_fluid_all.
  destruct (cython_fluid_spec K (list Z) list_eqb list_eqb_spec (shift_cell vel) (fun _ => true) p
    (update axes (fst st) c) (loop_cells axes c) (snd st c, (m0, u0)) i) as [H _].
  destruct (H (proj2 (loop_cells_spec c i Hc) Hi) eq_refl) as (fx & m & u & _ & E). rewrite E.
  eapply agree_trans; [apply Hp|]. cbn [vf]. apply step_value; assumption.
Qed.

Lemma one_step_holds p st G : computes p -> numpy_right p -> holds (fst st) G ->
  holds (fst (one_step axes vel p st)) (gstep G).
Proof.
  intros Hp Hnp HP c i Hc Hi.
  destruct (Hnp (shift_cell vel) (in_loop axes c) (update axes (fst st) c) (fst (snd st) c) (snd (snd st) c) i
    (proj2 (in_loop_spec c i Hc) Hi)) as (fn & mx & ux & E).
  refine (agree_trans K n _ _ _ (fun j _ => f_equal (fun f => f j) E) _).
  eapply agree_trans; [apply Hp|]. cbn [vf]. apply step_value; assumption.
Qed.

Lemma two_run_holds p m0 u0 st G : computes p -> holds (fst st) G ->
  forall t, holds (fst (iter t (two_step axes vel p m0 u0) st)) (iter t gstep G).
Proof.
  intros Hp HP. induction t as [|t IH]; [exact HP|]. cbn [iter]. apply two_step_holds; assumption.
Qed.
Lemma one_run_holds p st G : computes p -> numpy_right p -> holds (fst st) G ->
  forall t, holds (fst (iter t (one_step axes vel p) st)) (iter t gstep G).
Proof.
  intros Hp Hnp HP. induction t as [|t IH]; [exact HP|]. cbn [iter]. apply one_step_holds; assumption.
Qed.

(* Every distribution of the arrays is held by some global field. *)
Lemma holds_exists (P : fields K) : exists G, holds P G.
Proof.
  (* read the cell in the array of its owner *)
  set (owner := fun (x : axis) (g : Z) =>
    find (fun c => (ax_lo x c <=? g) && (g <? ax_hi x c)) (seq 0 (ax_p x))).
  set (oc := fun x g => match owner x g with Some c => c | None => 0%nat end).
  exists (fun g => P (map2 oc axes g) (map2 (fun x y => y - ax_lo x (oc x y) + ax_h x) axes g)).
  intros c i Hc Hi j Hj.
  pose proof (proj1 (coords_ok_iff axes c) Hc) as [Lc Hcd].
  assert (Li : length i = dim) by apply Hi.
  assert (Lg : length (globc c i) = dim) by (apply globc_length; assumption).
  assert (O : forall d, (d < dim)%nat -> oc (nth d axes dax) (nth d (globc c i) 0) = nth d c 0%nat).
  { intros d Hd. rewrite globc_nth by assumption. unfold oc, owner.
    assert (Hx : ax_ok (nth d axes dax)) by (apply Hokd; assumption).
    pose proof (proj2 Hi d Hd) as Hin.
    rewrite (find_unique _ _ (nth d c 0%nat)); [reflexivity| | |].
    - apply in_seq. specialize (Hcd d Hd). lia.
    - unfold ax_inner, ax_size in Hin. unfold glob. apply andb_true_intro. split; [apply Z.leb_le|apply Z.ltb_lt]; lia.
    - intros c' Hc' E. apply in_seq in Hc'. apply andb_prop in E. destruct E as [E1 E2].
      apply Z.leb_le in E1. apply Z.ltb_lt in E2.
      assert (I' : ax_inner (nth d axes dax) c' (glob (nth d axes dax) (nth d c 0%nat) (nth d i 0) - ax_lo (nth d axes dax) c' + ax_h (nth d axes dax))).
      { unfold ax_inner, ax_size. lia. }
      refine (proj1 (inner_unique (nth d axes dax) c' (nth d c 0%nat) _ _ Hx _ (Hcd d Hd) I' Hin _)); [lia|].
      unfold glob. f_equal. lia. }
  assert (E1 : map2 oc axes (globc c i) = c).
  { apply (nth_ext_len _ _ 0%nat); [rewrite map2_length; lia|]. intros d Hd. rewrite map2_length in Hd by lia.
    rewrite (map2_nth _ dax 0) by lia. apply O. exact Hd. }
  assert (E2 : map2 (fun x y => y - ax_lo x (oc x y) + ax_h x) axes (globc c i) = i).
  { apply (nth_ext_len _ _ 0); [rewrite map2_length; lia|]. intros d Hd. rewrite map2_length in Hd by lia.
    rewrite (map2_nth _ dax 0) by lia. rewrite O by exact Hd. rewrite globc_nth by assumption. unfold glob. lia. }
  rewrite E1, E2. reflexivity.
Qed.
End Global.

(* ---- sums over the domain, transport ---- *)
Section Torus.
Variable K : ring.
Add Ring Kring_torus : (rth K).
Variable sizes : list Z.
Hypothesis Hpos : Forall (fun s => 0 < s) sizes.

Definition all_cells : list (list Z) := nested (map (zrange 0) sizes).
Definition cell_ok (g : list Z) : Prop := Forall2 (fun x s => 0 <= x < s) g sizes.
Definition wrapn (g : list Z) : list Z := map2 Z.modulo g sizes.
Definition translate (w g : list Z) : list Z := wrapn (map2 Z.add g w).

Lemma all_cells_in g : In g all_cells <-> cell_ok g.
Proof.
  unfold all_cells, cell_ok. rewrite nested_in. clear Hpos. revert g. induction sizes as [|s t IH]; intros g; cbn.
  - split; intros H; inversion H; constructor.
  - split; intros H; inversion H as [|x r y z Hx Hz]; subst; constructor; try (apply zrange_in; exact Hx);
      try (apply zrange_in in Hx; exact Hx); apply IH; exact Hz.
Qed.
Lemma all_cells_NoDup : NoDup all_cells.
Proof.
  apply nested_NoDup. apply Forall_forall. intros r Hr. apply in_map_iff in Hr. destruct Hr as (s & <- & _).
  unfold zrange. apply FinFun.Injective_map_NoDup; [intros x y; lia|apply seq_NoDup].
Qed.
Lemma translate_ok w g : length w = length sizes -> length g = length sizes -> cell_ok (translate w g).
Proof.
  unfold translate, wrapn, cell_ok. revert w g. pose proof Hpos as HP. clear Hpos. induction HP as [|s t Hs _ IH]; intros [|x w] [|y g] Hw Hg; try discriminate; cbn.
  - constructor.
  - constructor; [apply Z.mod_pos_bound; exact Hs|]. injection Hw as Hw. injection Hg as Hg. apply IH; assumption.
Qed.
Lemma translate_inv w g : length w = length sizes -> cell_ok g ->
  translate w (translate (map Z.opp w) g) = g /\ translate (map Z.opp w) (translate w g) = g.
Proof.
  unfold translate, wrapn, cell_ok. clear Hpos. revert w g. induction sizes as [|s t IH]; intros [|x w] g Hw Hg; try discriminate;
    inversion Hg as [|y r g' t' Hy Hg']; subst; cbn; [split; reflexivity|].
  destruct (IH w g') as [E1 E2]; [cbn in Hw; lia|exact Hg'|]. unfold map2 in E1, E2. unfold map2.
  split; f_equal; try assumption; rewrite Z.add_mod_idemp_l by lia.
  - replace (y + - x + x) with y by lia. apply Z.mod_small. exact Hy.
  - replace (y + x + - x) with y by lia. apply Z.mod_small. exact Hy.
Qed.
Lemma cell_ok_length g : cell_ok g -> length g = length sizes.
Proof. apply Forall2_length. Qed.
Lemma translate_perm w : length w = length sizes -> Permutation (map (translate w) all_cells) all_cells.
Proof.
  intros Hw. apply NoDup_Permutation_bis.
  - assert (G : forall l, NoDup l -> (forall g, In g l -> cell_ok g) -> NoDup (map (translate w) l)).
    { induction 1 as [|x l Hx Hl IH]; intros HG; [constructor|]. cbn. constructor.
      - intros C. apply in_map_iff in C. destruct C as (y & E & Hy). apply Hx.
        assert (x = y) as ->; [|exact Hy].
        rewrite <- (proj2 (translate_inv w x Hw (HG x (or_introl eq_refl)))).
        rewrite <- (proj2 (translate_inv w y Hw (HG y (or_intror Hy)))). rewrite E. reflexivity.
      - apply IH. intros g Hg. apply HG. right. exact Hg. }
    apply G; [apply all_cells_NoDup|]. intros g Hg. apply all_cells_in. exact Hg.
  - rewrite map_length. lia.
  - intros g Hg. apply in_map_iff in Hg. destruct Hg as (h & <- & Hh). apply all_cells_in in Hh.
    apply all_cells_in. apply translate_ok; [exact Hw|]. apply cell_ok_length. exact Hh.
Qed.
Lemma sum_translate w (g : list Z -> K) : length w = length sizes ->
  sumL all_cells (fun x => g (translate w x)) = sumL all_cells g.
Proof.
  intros Hw. rewrite <- sumL_map. apply sumL_perm. apply translate_perm. exact Hw.
Qed.
End Torus.
