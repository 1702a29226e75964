(* Sums over all the cells of all the processes, transport, translations. *)
From Verif Require Import PyBase VelocityModel GridModel GridProofs StorageModel StorageProofs ExchangeProofs LinAlg AlgoModel AlgoProofs GlobalModel GlobalProofs.
From Coq Require Import Sorting.Permutation.
Open Scope Z_scope.

Lemma NoDup_app {A} (l m : list A) : NoDup l -> NoDup m -> (forall x, In x l -> ~ In x m) -> NoDup (l ++ m).
Proof.
  induction 1 as [|x l Hx Hl IH]; intros Hm H; [exact Hm|]. cbn. constructor.
  - rewrite in_app_iff. intros [C|C]; [exact (Hx C)|]. exact (H x (or_introl eq_refl) C).
  - apply IH; [exact Hm|]. intros y Hy. apply H. right. exact Hy.
Qed.
Lemma zrange_NoDup lo hi : NoDup (zrange lo hi).
Proof. unfold zrange. apply FinFun.Injective_map_NoDup; [intros x y; lia|apply seq_NoDup]. Qed.

Section Torus2.
Variable K : arith.
Variable axes : list axis.
Variable vel : nat -> list Z.
Variable n : nat.
Variable L : vec K -> vec K.
Notation dim := (length axes).
Notation sizes := (map ax_n axes).
Hypothesis Hdim : (length axes <= 3)%nat.
Hypothesis Hok : Forall ax_ok axes.
Hypothesis Hpos : Forall (fun a => 0 < ax_n a) axes.
Hypothesis Hlen : forall k, (k < n)%nat -> length (vel k) = dim.

Lemma loop_spec c i : coords_ok axes c -> (In i (loop_cells axes c) <-> inner axes c i).
Proof. apply (loop_cells_spec axes 0%nat Hdim). Qed.
Lemma sizes_pos : Forall (fun s => 0 < s) sizes.
Proof. apply Forall_map. exact Hpos. Qed.
Lemma gcell_cell_ok g : gcell axes g <-> cell_ok sizes g.
Proof.
  unfold gcell, cell_ok. clear. revert g. induction axes as [|a t IH]; intros g; cbn.
  - split; [intros [H _]; destruct g; [constructor|discriminate]|intros H; inversion H; split; [reflexivity|cbn; lia]].
  - split.
    + intros [H1 H2]. destruct g as [|x g]; [discriminate|]. constructor; [apply (H2 0%nat); lia|].
      apply IH. split; [cbn in H1; lia|]. intros d Hd. apply (H2 (S d)). lia.
    + intros H. inversion H as [|x s g' t' Hx Hg]; subst. apply IH in Hg. destruct Hg as [G1 G2].
      split; [cbn; lia|]. intros [|d] Hd; [exact Hx|]. apply (G2 d). lia.
Qed.
Lemma wrap_shift k g : (k < n)%nat -> length g = dim ->
  wrap axes (shift_cell vel k g) = translate sizes (map Z.opp (vel k)) g.
Proof.
  intros Hk Hg. unfold wrap, shift_cell, translate, wrapn. f_equal. specialize (Hlen k Hk).
  revert Hlen Hg. generalize (vel k). clear. generalize dim. intros d l. revert d g.
  induction l as [|x l IH]; intros d [|y g] H1 H2; cbn in *; subst; try discriminate; [reflexivity|].
  unfold map2 in *. cbn. f_equal. apply (IH (length l)); lia.
Qed.

Lemma globc_inj c i c' i' : coords_ok axes c -> coords_ok axes c' -> inner axes c i -> inner axes c' i' ->
  globc axes c i = globc axes c' i' -> c = c' /\ i = i'.
Proof.
  intros Hc Hc' Hi Hi' E. pose proof (proj1 (coords_ok_iff axes c) Hc) as [Lc Hcd].
  pose proof (proj1 (coords_ok_iff axes c') Hc') as [Lc' Hcd'].
  pose proof (proj1 Hi) as Li. pose proof (proj1 Hi') as Li'.
  assert (H : forall d, (d < dim)%nat -> nth d c 0%nat = nth d c' 0%nat /\ nth d i 0 = nth d i' 0).
  { intros d Hd. apply (inner_unique (nth d axes dax)); [apply Hokd; assumption|apply Hcd; exact Hd|apply Hcd'; exact Hd| | |].
    - apply Hi; exact Hd.
    - apply Hi'; exact Hd.
    - rewrite <- !globc_nth by assumption. rewrite E. reflexivity. }
  split; [apply (nth_ext_len _ _ 0%nat)|apply (nth_ext_len _ _ 0)]; try lia; intros d Hd; apply H; lia.
Qed.

Lemma owner_perm cs : NoDup cs -> (forall c, In c cs <-> coords_ok axes c) ->
  Permutation (flat_map (fun c => map (globc axes c) (loop_cells axes c)) cs) (all_cells sizes).
Proof.
  intros Hnd Hcs. apply NoDup_Permutation.
  - assert (G : forall l, NoDup l -> (forall c, In c l -> coords_ok axes c) ->
      NoDup (flat_map (fun c => map (globc axes c) (loop_cells axes c)) l)).
    { clear Hcs. induction 1 as [|c l Hc Hl IH]; intros HG; [constructor|]. cbn. apply NoDup_app.
      - assert (N : NoDup (loop_cells axes c)).
        { apply nested_NoDup. apply Forall_forall. intros r Hr. unfold map2 in Hr. apply in_map_iff in Hr.
          destruct Hr as (x & <- & _). apply zrange_NoDup. }
        assert (I : forall x, In x (loop_cells axes c) -> inner axes c x) by (intros x Hx; apply loop_spec; [apply HG; left; reflexivity|exact Hx]).
        induction N as [|x t Hx Ht IHt]; [constructor|]. cbn. constructor.
        + intros C. apply in_map_iff in C. destruct C as (y & E & Hy).
          apply globc_inj in E; [|apply HG; left; reflexivity|apply HG; left; reflexivity|apply I; right; exact Hy|apply I; left; reflexivity].
          destruct E as [_ ->]. exact (Hx Hy).
        + apply IHt. intros y Hy. apply I. right. exact Hy.
      - apply IH. intros c' Hc'. apply HG. right. exact Hc'.
      - intros g Hg Hg'. apply in_map_iff in Hg. destruct Hg as (x & <- & Hx). apply in_flat_map in Hg'.
        destruct Hg' as (c' & Hc' & Hg'). apply in_map_iff in Hg'. destruct Hg' as (y & E & Hy).
        assert (Oc : coords_ok axes c) by (apply HG; left; reflexivity).
        assert (Oc' : coords_ok axes c') by (apply HG; right; exact Hc').
        apply (proj1 (loop_spec c x Oc)) in Hx. apply (proj1 (loop_spec c' y Oc')) in Hy.
        apply globc_inj in E; try assumption. destruct E as [-> _]. exact (Hc Hc'). }
    apply G; [exact Hnd|]. intros c. apply Hcs.
  - apply all_cells_NoDup.
  - intros g. rewrite all_cells_in, <- gcell_cell_ok. rewrite in_flat_map. split.
    + intros (c & Hc & Hg). apply in_map_iff in Hg. destruct Hg as (x & <- & Hx). apply Hcs in Hc.
      apply globc_gcell; try assumption. apply loop_spec; assumption.
    + intros Hg. destruct (gcell_globc axes 0%nat Hdim Hok g Hg) as (c & i & Hc & Hi & <-).
      exists c. split; [apply Hcs; exact Hc|]. apply in_map. apply loop_spec; assumption.
Qed.

(* sum over all the processes of a quantity of the distributions of their cells *)
Definition total (cs : list (list nat)) (q : vec K -> K) (F : fields K) : K :=
  sumL cs (fun c => sumL (loop_cells axes c) (fun x => q (F c x))).


(* ---- the step on the whole domain ---- *)

Lemma grun_uniform f (G : list Z -> vec K) :
  (forall f f', agree K n f f' -> agree K n (L f) (L f')) -> agree K n (L f) f ->
  (forall g, cell_ok sizes g -> agree K n (G g) f) ->
  forall t g, cell_ok sizes g -> agree K n (iter t (gstep K axes vel L) G g) f.
Proof.
  intros HL Hf HG. induction t as [|t IH]; intros g Hg; [apply HG; exact Hg|]. cbn [iter]. unfold gstep.
  refine (agree_trans K n _ _ _ (HL _ f _) Hf). intros k Hk. apply IH; [|exact Hk].
  pose proof (cell_ok_length _ _ Hg) as Lg. rewrite map_length in Lg. rewrite wrap_shift by assumption.
  apply translate_ok; [exact sizes_pos|rewrite !map_length; apply Hlen; exact Hk|rewrite map_length; exact Lg].
Qed.

(* translations *)
Lemma translate_comm w w' g : length w = dim -> length w' = dim -> length g = dim ->
  translate sizes w (translate sizes w' g) = translate sizes w' (translate sizes w g).
Proof.
  unfold translate, wrapn. clear Hlen Hdim Hok Hpos. revert w w' g. induction axes as [|a t IH]; intros [|x w] [|y w'] [|z g] H1 H2 H3; try discriminate; cbn; [reflexivity|].
  unfold map2 in *. cbn. f_equal.
  - rewrite !Zplus_mod_idemp_l. f_equal. lia.
  - apply IH; cbn in *; lia.
Qed.
Lemma grun_translate w G : length w = dim ->
  (forall f f', agree K n f f' -> agree K n (L f) (L f')) ->
  forall t g, cell_ok sizes g ->
  agree K n (iter t (gstep K axes vel L) (fun x => G (translate sizes w x)) g)
            (iter t (gstep K axes vel L) G (translate sizes w g)).
Proof.
  intros Hw HL. induction t as [|t IH]; intros g Hg; [intros i _; reflexivity|]. cbn [iter]. unfold gstep at 1 3.
  pose proof (cell_ok_length _ _ Hg) as Lg. rewrite map_length in Lg.
  apply HL. intros k Hk.
  assert (Lv : length (map Z.opp (vel k)) = dim) by (rewrite map_length; apply Hlen; exact Hk).
  assert (Hg' : cell_ok sizes (translate sizes w g)).
  { apply translate_ok; [exact sizes_pos|rewrite map_length; exact Hw|rewrite map_length; exact Lg]. }
  assert (Lg' : length (translate sizes w g) = dim) by (rewrite (cell_ok_length _ _ Hg'); apply map_length).
  rewrite !wrap_shift by assumption.
  rewrite IH; [|apply translate_ok; [exact sizes_pos|rewrite !map_length; apply Hlen; exact Hk|rewrite map_length; exact Lg]|exact Hk].
  rewrite translate_comm by assumption. reflexivity.
Qed.

(* t transports *)
Lemma translate_translate w w' g : length w = dim -> length w' = dim -> length g = dim ->
  translate sizes w (translate sizes w' g) = translate sizes (map2 Z.add w' w) g.
Proof.
  unfold translate, wrapn. clear Hlen Hdim Hok Hpos. revert w w' g. induction axes as [|a t IH]; intros [|x w] [|y w'] [|z g] H1 H2 H3; try discriminate; cbn; [reflexivity|].
  unfold map2 in *. cbn. f_equal.
  - rewrite !Zplus_mod_idemp_l. f_equal. lia.
  - apply IH; cbn in *; lia.
Qed.
Lemma translate_zero g : cell_ok sizes g -> translate sizes (map (fun _ => 0) axes) g = g.
Proof.
  unfold translate, wrapn, cell_ok. clear Hlen Hdim Hok Hpos. revert g. induction axes as [|a t IH]; intros g H; inversion H as [|x s g' t' Hx Hg]; subst; [reflexivity|].
  unfold map2 in *. cbn. f_equal; [rewrite Z.add_0_r; apply Z.mod_small; exact Hx|]. apply IH. exact Hg.
Qed.
Lemma grun_transport G k : (k < n)%nat -> (forall f, L f k = f k) -> forall t g, cell_ok sizes g ->
  iter t (gstep K axes vel L) G g k = G (translate sizes (map (fun x => - Z.of_nat t * x) (vel k)) g) k.
Proof.
  intros Hk HL. pose proof (Hlen k Hk) as Lv. induction t as [|t IH]; intros g Hg.
  - cbn [iter]. f_equal.
    assert (E : map (fun x => - Z.of_nat 0 * x) (vel k) = map (fun _ => 0) axes).
    { revert Lv. generalize (vel k). clear. induction axes as [|a t IH]; intros [|x l] H; try discriminate; [reflexivity|].
      cbn. f_equal. apply IH; cbn in H; lia. }
    rewrite E, translate_zero by exact Hg. reflexivity.
  - cbn [iter]. unfold gstep at 1. rewrite HL.
    pose proof (cell_ok_length _ _ Hg) as Lg. rewrite map_length in Lg.
    rewrite wrap_shift by assumption. rewrite IH.
    + rewrite translate_translate by (rewrite ?map_length; assumption). f_equal. f_equal.
      unfold map2. generalize (vel k). clear. induction l as [|x l IH]; [reflexivity|]. cbn [map combine]. f_equal; [cbn [fst snd]; lia|exact IH].
    + apply translate_ok; [exact sizes_pos|rewrite !map_length; exact Lv|rewrite map_length; exact Lg].
Qed.
Lemma grun_permutation G k : (k < n)%nat -> (forall f, L f k = f k) -> forall t,
  Permutation (map (fun g => iter t (gstep K axes vel L) G g k) (all_cells sizes)) (map (fun g => G g k) (all_cells sizes)).
Proof.
  intros Hk HL t.
  rewrite (map_ext_in _ (fun g => G (translate sizes (map (fun x => - Z.of_nat t * x) (vel k)) g) k)).
  - rewrite <- (map_map (translate sizes (map (fun x => - Z.of_nat t * x) (vel k))) (fun g => G g k)).
    apply Permutation_map. apply translate_perm; [exact sizes_pos|]. rewrite !map_length. apply Hlen. exact Hk.
  - intros g Hg. apply all_cells_in in Hg. apply grun_transport; assumption.
Qed.
End Torus2.

(* with the laws of the ring *)
Section Torus2Ring.
Variable K : ring.
Variable axes : list axis.
Variable vel : nat -> list Z.
Variable n : nat.
Variable L : vec K -> vec K.
Notation dim := (length axes).
Notation sizes := (map ax_n axes).
Hypothesis Hdim : (length axes <= 3)%nat.
Hypothesis Hok : Forall ax_ok axes.
Hypothesis Hpos : Forall (fun a => 0 < ax_n a) axes.
Hypothesis Hlen : forall k, (k < n)%nat -> length (vel k) = dim.
Notation total := (total K axes).

Lemma total_global cs q F G : NoDup cs -> (forall c, In c cs <-> coords_ok axes c) ->
  (forall f f', agree K n f f' -> q f = q f') -> holds K axes n F G ->
  total cs q F = sumL (all_cells sizes) (fun g => q (G g)).
Proof.
  intros Hnd Hcs Hq HF. rewrite <- (sumL_perm K _ _ _ (owner_perm axes vel n Hdim Hok Hlen cs Hnd Hcs)). rewrite sumL_flat_map.
  apply sumL_ext. intros c Hc. rewrite sumL_map. apply sumL_ext. intros x Hx. apply Hq.
  apply Hcs in Hc. apply HF; [exact Hc|]. apply loop_spec; assumption.
Qed.
Lemma gstep_total (M : mat K) i G :
  (forall f, mvmul n M (L f) i = mvmul n M f i) ->
  sumL (all_cells sizes) (fun g => mvmul n M (gstep K axes vel L G g) i) =
  sumL (all_cells sizes) (fun g => mvmul n M (G g) i).
Proof.
  intros HL. unfold gstep.
  transitivity (sumL (all_cells sizes) (fun g => sum n (fun k => M i k * G (wrap axes (shift_cell vel k g)) k)%K)).
  { apply sumL_ext. intros g Hg. rewrite HL. reflexivity. }
  unfold mvmul, sum. rewrite sumL_swap. rewrite (sumL_swap K (all_cells sizes)). apply sumL_ext. intros k Hk. apply in_seq in Hk.
  rewrite <- (sum_translate K sizes (sizes_pos axes Hpos) (map Z.opp (vel k)) (fun g => M i k * G g k)%K).
  - apply sumL_ext. intros g Hg. apply all_cells_in in Hg. apply cell_ok_length in Hg. rewrite map_length in Hg.
    rewrite (wrap_shift axes vel n Hlen) by (lia || exact Hg). reflexivity.
  - rewrite !map_length. apply Hlen. lia.
Qed.
Lemma grun_total (M : mat K) i G :
  (forall f, mvmul n M (L f) i = mvmul n M f i) -> forall t,
  sumL (all_cells sizes) (fun g => mvmul n M (iter t (gstep K axes vel L) G g) i) =
  sumL (all_cells sizes) (fun g => mvmul n M (G g) i).
Proof. intros HL. induction t as [|t IH]; [reflexivity|]. cbn [iter]. rewrite gstep_total by exact HL. exact IH. Qed.
End Torus2Ring.
