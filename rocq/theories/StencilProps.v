(* Property theorems C06-C08: tables of the stencil. *)
From Verif Require Import PyBase VelocityModel VelocityProofs PermuteProofs Velocity3Proofs StencilModel StencilProofs.
From Coq Require Import Sorting.Sorted Sorting.Permutation.
Open Scope Z_scope.

(* nonneg: all numbers are >= 0.  has_velocity dim n: n >= 0 and dim is 1 or 2, or
   dim is 3 and n < 199^3.  -1000 is the "no velocity" mark of unum2index. *)
Theorem C06_stencil_tables : forall dim schemes, nonneg schemes ->
  ((exists st, build_stencil dim schemes = Some st) <->
   schemes <> [] /\ ~ In [] schemes /\ (forall s n, In s schemes -> In n s -> has_velocity dim n)) /\
  forall st, build_stencil dim schemes = Some st ->
    StronglySorted Z.lt (map vnum (sunique st)) /\
    (forall v, In v (sunique st) <-> (exists s, In s schemes /\ In (vnum v) s) /\ vel_of_num dim (vnum v) = Some v) /\
    map (map vnum) (sv st) = schemes /\
    (forall vs v, In vs (sv st) -> In v vs ->
       exists i, nth_error (sunum2index st) (Z.to_nat (vnum v)) = Some (Z.of_nat i) /\ nth_error (sunique st) i = Some v) /\
    (forall m x, (forall s, In s schemes -> ~ In (Z.of_nat m) s) ->
       nth_error (sunum2index st) m = Some x -> x = -1000) /\
    snv st = map (fun s => Z.of_nat (length s)) schemes /\
    length (snv_ptr st) = S (length schemes) /\
    (forall k, (k <= length schemes)%nat ->
       nth_error (snv_ptr st) k = Some (Z.of_nat (length (concat (firstn k schemes))))) /\
    snum2index st = concat schemes /\
    length (get_all_velocities st) = length (concat schemes) /\
    (forall k n, nth_error (concat schemes) k = Some n ->
       exists v, vel_of_num dim n = Some v /\ nth_error (get_all_velocities st) k = Some (vcoords v)) /\
    (forall s n i l, nth_error schemes s = Some l -> nth_error l i = Some n ->
       exists v row, vel_of_num dim n = Some v /\ get_scheme_velocities st s = Some row /\
         nth_error row i = Some (vcoords v)).
Proof. exact C06_lemma. Qed.
Print Assumptions C06_stencil_tables.

Example C06_example : nonneg [[0; 5; 2]; [3; 0; 1]] /\
  exists st, build_stencil 2 [[0; 5; 2]; [3; 0; 1]] = Some st /\
    map vnum (sunique st) = [0; 1; 2; 3; 5] /\ snv_ptr st = [0; 3; 6] /\
    sunum2index st = [0; 1; 2; 3; -1000; 4] /\
    get_all_velocities st = [[0; 0]; [1; 1]; [0; 1]; [-1; 0]; [0; 0]; [1; 0]].
Proof.
  split.
  - intros s x [<-|[<-|[]]] Hx; cbn in Hx; lia.
  - eexists. repeat split; vm_compute; reflexivity.
Qed.

(* scheme_closed axis vs: each velocity of vs has in vs a velocity with the
   symmetric coordinates (see C04 for sym_coords). *)
Theorem C07_opposite_table : forall dim schemes st axis,
  nonneg schemes -> build_stencil dim schemes = Some st ->
  (forall a, axis = Some a -> 0 <= a < dim) ->
  ((exists r, stencil_get_symmetric st axis = Some r) <-> Forall (scheme_closed axis) (sv st)) /\
  forall r, stencil_get_symmetric st axis = Some r ->
    length r = length (concat schemes) /\
    (forall n i vs v, nth_error (sv st) n = Some vs -> nth_error vs i = Some v ->
      exists j u, nth_error vs j = Some u /\ vcoords u = sym_coords axis (vcoords v) /\
        nth_error r (length (concat (firstn n schemes)) + i) = Some (Z.of_nat (length (concat (firstn n schemes)) + j))) /\
    (Forall (@NoDup Z) schemes ->
      forall k i, nth_error r k = Some i -> nth_error r (Z.to_nat i) = Some (Z.of_nat k)).
Proof. exact C07_lemma. Qed.
Print Assumptions C07_opposite_table.

Theorem C07_opposite_table_bad_axis : forall dim schemes st a,
  nonneg schemes -> build_stencil dim schemes = Some st ->
  ~ (0 <= a < dim) -> stencil_get_symmetric st (Some a) = None.
Proof. exact C07_bad_axis. Qed.
Print Assumptions C07_opposite_table_bad_axis.

Example C07_example : exists st, build_stencil 2 [[0; 1; 2; 3; 4]; [4; 2]] = Some st /\
  stencil_get_symmetric st None = Some [0; 3; 4; 1; 2; 6; 5] /\
  stencil_get_symmetric st (Some 1) = Some [0; 3; 2; 1; 4; 5; 6] /\
  stencil_get_symmetric st (Some 2) = None.
Proof. eexists. repeat split; vm_compute; reflexivity. Qed.

(* Without the hypothesis that a scheme does not repeat a number the table is not
   an involution. *)
Theorem C07_involution_without_nodup_refuted : exists schemes st r k i,
  nonneg schemes /\ build_stencil 1 schemes = Some st /\ stencil_get_symmetric st None = Some r /\
  nth_error r k = Some i /\ nth_error r (Z.to_nat i) <> Some (Z.of_nat k).
Proof.
  exists [[1; 1; 2]]. eexists. eexists. exists 1%nat. exists 2.
  repeat split; try (vm_compute; reflexivity).
  - intros s x [<-|[]] Hx; cbn in Hx; lia.
  - vm_compute. discriminate.
Qed.
Print Assumptions C07_involution_without_nodup_refuted.

(* One scheme: is_symmetric is exact. *)
Theorem C07_is_symmetric_one_scheme_partial : forall dim s st,
  nonneg [s] -> build_stencil dim [s] = Some st ->
  exists b, is_symmetric st = Some b /\ (b = true <-> Forall (scheme_closed None) (sv st)).
Proof. exact C07_one. Qed.
Print Assumptions C07_is_symmetric_one_scheme_partial.

(* Several schemes: the answer is the one of the last scheme only. *)
Theorem C07_is_symmetric_refuted : exists dim schemes st,
  nonneg schemes /\ build_stencil dim schemes = Some st /\
  is_symmetric st = Some true /\ ~ Forall (scheme_closed None) (sv st).
Proof.
  exists 1, [[0; 1]; [0; 1; 2]]. eexists. repeat split; try (vm_compute; reflexivity).
  - intros s x [<-|[<-|[]]] Hx; cbn in Hx; lia.
  - intros H. inversion H as [|? ? Hc _]; subst.
    destruct (Hc (mkVel 1 1 1 None None)) as (w & Hw & Hcw); [right; left; reflexivity|].
    destruct Hw as [<-|[<-|[]]]; vm_compute in Hcw; discriminate.
Qed.
Print Assumptions C07_is_symmetric_refuted.

(* vmax st d / vmin st d: largest and smallest signed component d.  An axis of n
   inner cells is stored as n + 2*vmax cells, the inner ones start at vmax.
   inner n h i: index of an inner cell; in_array n h i: index inside the array. *)
Theorem C08_halo_symmetric_partial : forall dim schemes st d mx n,
  nonneg schemes -> build_stencil dim schemes = Some st ->
  Forall (scheme_closed None) (sv st) -> vmax st d = Some mx ->
  forall v c i, In v (sunique st) -> nth_error (vcoords v) d = Some c ->
    mx <= i < n + mx -> 0 <= i - c < n + 2 * mx.
Proof.
  intros dim schemes st d mx n Hnn H HC HM v c i Hv Hc Hi.
  exact (halo_symmetric dim schemes st d mx n (build_facts dim schemes st Hnn H) HC HM v c i Hv
           (coords_vcomp v d c Hc) Hi).
Qed.
Print Assumptions C08_halo_symmetric_partial.

Theorem C08_halo_iff : forall st d mx mn n, vmax st d = Some mx -> vmin st d = Some mn -> 1 <= n ->
  ((forall v c i, In v (sunique st) -> vcomp d v = Some c -> inner n mx i -> in_array n mx (i - c))
   <-> - mx <= mn).
Proof. exact halo_iff. Qed.
Print Assumptions C08_halo_iff.

Example C08_example : exists st, build_stencil 2 [[0; 1; 2; 3; 4; 9; 11]] = Some st /\
  vmax st 0 = Some 2 /\ vmin st 0 = Some (-2) /\ vmax st 1 = Some 1 /\ vmin st 1 = Some (-1).
Proof. eexists. repeat split; vm_compute; reflexivity. Qed.

(* A one sided stencil: velocities 0 and -1 get no ghost cell at all. *)
Theorem C08_halo_refuted : exists st v c i n mx,
  build_stencil 1 [[0; 2]] = Some st /\ vmax st 0 = Some mx /\ In v (sunique st) /\
  nth_error (vcoords v) 0 = Some c /\ 1 <= n /\ mx <= i < n + mx /\ ~ (0 <= i - c < n + 2 * mx).
Proof.
  eexists. exists (mkVel 1 2 (-1) None None), (-1), 9, 10, 0.
  repeat split; try (vm_compute; reflexivity); try lia.
  vm_compute. right. left. reflexivity.
Qed.
Print Assumptions C08_halo_refuted.
