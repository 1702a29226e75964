(* Property theorems C01-C05: velocity numbers, symmetries, permutations. *)
From Verif Require Import PyBase VelocityModel VelocityProofs PermuteProofs Velocity3Proofs.
From Coq Require Import Sorting.Sorted Sorting.Permutation.
Open Scope Z_scope.

Theorem C01_velocity_1d_bijection :
  (forall x, 0 <= set_num1 x /\ set_coord1 (set_num1 x) = x) /\
  (forall num, 0 <= num -> set_num1 (set_coord1 num) = num) /\
  (forall x y, set_num1 x = set_num1 y -> x = y).
Proof. exact C01_lemma. Qed.
Print Assumptions C01_velocity_1d_bijection.

Example C01_example : 0 <= 41 /\ set_num1 (-1000000007) = 2000000014 /\ set_coord1 41 = 21.
Proof. repeat split; discriminate. Qed.

Theorem C02_velocity_2d_bijection :
  (forall x y, exists num, set_num2 x y = Some num /\ 0 <= num /\ set_coord2 num = Some (x, y)) /\
  (forall num, 0 <= num -> exists x y, set_coord2 num = Some (x, y) /\ set_num2 x y = Some num) /\
  (forall num, num < 0 -> set_coord2 num = None) /\
  (forall x y num n, set_num2 x y = Some num -> 1 <= n ->
     (Z.max (Z.abs x) (Z.abs y) = n <-> (2 * n - 1) ^ 2 <= num <= (2 * n + 1) ^ 2 - 1)).
Proof. exact C02_lemma. Qed.
Print Assumptions C02_velocity_2d_bijection.

Example C02_example : set_num2 (-3) 2 = Some 44 /\ 1 <= 3 /\ set_coord2 44 = Some (-3, 2).
Proof. repeat split; discriminate. Qed.

(* maxabs (x,y,z) = max of the absolute values. *)
Theorem C03_velocity_3d_bijection :
  (forall v, (exists num, set_num3 100 v = Some num) <-> maxabs v < 100) /\
  (forall v num, set_num3 100 v = Some num -> 0 <= num < 199 ^ 3 /\ set_coord3 100 num = Some v) /\
  (forall num, 0 <= num < 199 ^ 3 <-> exists v, set_coord3 100 num = Some v) /\
  (forall num v, set_coord3 100 num = Some v -> set_num3 100 v = Some num) /\
  (forall v num k, 1 <= k -> set_num3 100 v = Some num ->
     (maxabs v = k <-> (2 * k - 1) ^ 3 <= num < (2 * k + 1) ^ 3)).
Proof. exact C03_lemma. Qed.
Print Assumptions C03_velocity_3d_bijection.

Example C03_example : set_num3 100 (2, -1, 0) = Some 54 /\ maxabs (2, -1, 0) = 2.
Proof.
  split; [|reflexivity]. apply (set_num3_mono 3); [lia|]. vm_compute. reflexivity.
Qed.

(* wf_velocity v: the constructor called on the coordinates of v gives v (in
   particular the number is the number of the coordinates).
   bad_axis v axis: axis = Some a with a < 0 or a >= dimension.
   sym_coords axis l: entry i is negated unless axis = Some i. *)
Theorem C04_symmetric_velocity :
  (forall x y z v, vel_of_coord x y z = Some v -> wf_velocity v) /\
  (forall d n v, 0 <= n -> vel_of_num d n = Some v -> wf_velocity v /\ vdim v = d /\ vnum v = n) /\
  (forall v axis, get_symmetric v axis = SymErr <-> bad_axis v axis) /\
  (forall v axis, wf_velocity v -> ~ bad_axis v axis ->
     exists w, get_symmetric v axis = SymOk w /\ wf_velocity w /\ vdim w = vdim v /\
       vcoords w = sym_coords axis (vcoords v) /\ get_symmetric w axis = SymOk v).
Proof. exact C04_lemma. Qed.
Print Assumptions C04_symmetric_velocity.

Example C04_example :
  let v := mkVel 2 44 (-3) (Some 2) None in
  wf_velocity v /\ ~ bad_axis v (Some 1) /\ bad_axis v (Some 2) /\
  get_symmetric v (Some 1) = SymOk (mkVel 2 41 3 (Some 2) None).
Proof.
  cbn zeta. split; [reflexivity|]. split; [|split; [|reflexivity]].
  - intros (a & E & H). inversion E; subst. cbn in H. lia.
  - exists 2. split; [reflexivity|]. cbn. lia.
Qed.

Theorem C05_permute_in_place : forall l, exists ys lf,
  (exists n, forall fuel, (n <= fuel)%nat -> permute_in_place fuel l = Some (ys, lf)) /\
  NoDup ys /\ StronglySorted lexlt ys /\ (forall m, In m ys <-> Permutation m l) /\
  StronglySorted Z.le lf /\ Permutation lf l.
Proof. exact permute_all. Qed.
Print Assumptions C05_permute_in_place.

Example C05_example : permute_in_place 10 [1; 0; 0] =
  Some ([[0; 0; 1]; [0; 1; 0]; [1; 0; 0]], [0; 0; 1]).
Proof. reflexivity. Qed.
