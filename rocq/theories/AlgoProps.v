(* Property theorems C23, C24 (one cell), C25, C26, C30, C31, C50. *)
From Verif Require Import PyBase LinAlg SchemeModel SchemeProofs AlgoModel AlgoProofs RelVelProofs KernelProofs.

(* ---- from the scheme to the algorithm (base.py 123-134) ----
   The equilibrium as a function of the moments: a conserved symbol stands for the
   moment of its recorded index, the other symbols are parameters. *)
Definition eq_of_scheme {K : ring} (sc : scheme K) (par : nat -> K) (m : vec K) : vec K := fun k =>
  eval (sc_EQ sc k) (fun c => match odict_get (sc_consm sc) c with Some i => m i | None => par c end).

(* A scheme whose conserved moments are in front, in order, gives equilibria which
   depend on the conserved moments only and are the identity on them: this is what
   eq_ok asks of the equilibrium. *)
Theorem C23_scheme_equilibria : forall (K : ring) (sc : scheme K) par,
  (forall k g val val', sc_EQ sc k = EFun g -> (forall c, val c = val' c) -> g val = g val') ->
  (forall i c p, nth_error (sc_consm sc) i = Some (c, p) -> p = i /\ sc_EQ sc i = ESym c) ->
  NoDup (map fst (sc_consm sc)) ->
  let nc := length (sc_consm sc) in
  (forall m m', (forall i, (i < nc)%nat -> m i = m' i) -> forall k, eq_of_scheme sc par m k = eq_of_scheme sc par m' k) /\
  (forall m i, (i < nc)%nat -> eq_of_scheme sc par m i = m i).
Proof.
  intros K sc par Hg Hc Hnd nc.
  assert (G : forall d c i, odict_get d c = Some i -> In (c, i) d).
  { induction d as [|[k v] t IH]; intros c i E; [discriminate|]. cbn in E.
    destruct (Nat.eqb_spec c k) as [->|N]; [left; congruence|right; apply IH; exact E]. }
  split.
  - intros m m' H k. unfold eq_of_scheme.
    assert (V : forall c, match odict_get (sc_consm sc) c with Some i => m i | None => par c end =
                          match odict_get (sc_consm sc) c with Some i => m' i | None => par c end).
    { intros c. destruct (odict_get (sc_consm sc) c) as [i|] eqn:E; [|reflexivity].
      apply G, In_nth_error in E. destruct E as [j E]. pose proof (Hc _ _ _ E) as [-> _].
      apply H. apply nth_error_Some. congruence. }
    destruct (sc_EQ sc k) as [c|g] eqn:E; cbn [eval]; [apply V|]. apply (Hg k g _ _ E V).
  - intros m i Hi. destruct (nth_error (sc_consm sc) i) as [[c p]|] eqn:E; [|apply nth_error_None in E; unfold nc in Hi; lia].
    destruct (Hc _ _ _ E) as [-> HE]. unfold eq_of_scheme. rewrite HE. cbn [eval].
    assert (O : forall d, NoDup (map fst d) -> forall j c q, nth_error d j = Some (c, q) -> odict_get d c = Some q).
    { clear. induction d as [|[k v] t IH]; intros Hn j c q Hj; [destruct j; discriminate|].
      cbn. inversion Hn as [|? ? Hni Hnt]; subst. destruct j as [|j]; cbn in Hj.
      - assert (k = c) as -> by congruence. rewrite Nat.eqb_refl. congruence.
      - destruct (Nat.eqb_spec c k) as [->|N]; [|eauto].
        exfalso. apply Hni. apply nth_error_In in Hj. apply (in_map fst) in Hj. exact Hj. }
    rewrite (O _ Hnd _ _ _ E). reflexivity.
Qed.
Print Assumptions C23_scheme_equilibria.

(* ---- an example: velocities 0 and 1, polynomials 1 and X ---- *)
Definition zm (l : list (list Z)) : mat Zring := fun i j => nth j (nth i l []) 0%Z.
Definition a_ex : algo Zring := mkAlgo 2 1 1 (zm [[1; 1]; [0; 1]]%Z) (zm [[1; -1]; [0; 1]]%Z)
  (fun _ => idm) (fun m k => if Nat.eqb k 0 then m 0%nat else (3 * m 0%nat)%Z)
  (fun _ k => Z.of_nat (2 * k)) None [] 5%Z.
(* with a relative velocity equal to the density *)
Definition a_rel : algo Zring := mkAlgo 2 1 1 (zm [[1; 1]; [0; 1]]%Z) (zm [[1; -1]; [0; 1]]%Z)
  (fun u => zm [[1; 0]; [- u 0%nat; 1]]%Z) (fun m k => if Nat.eqb k 0 then m 0%nat else (3 * m 0%nat)%Z)
  (fun _ k => Z.of_nat (2 * k)) (Some (fun m _ => m 0%nat)) [] 5%Z.
Lemma a_ex_inverse : inverse 2 (zm [[1; 1]; [0; 1]]%Z) (zm [[1; -1]; [0; 1]]%Z).
Proof. split; intros [|[|i]] [|[|j]] Hi Hj; try lia; reflexivity. Qed.
Lemma a_ex_eq_ok : eq_ok Zring a_ex.
Proof.
  split; [cbn; lia|]. split; [|split].
  - intros m m' H k Hk. cbn. rewrite (H 0%nat) by (cbn; lia). reflexivity.
  - intros m m' H k Hk. reflexivity.
  - intros m [|i] Hi; [reflexivity|cbn in Hi; lia].
Qed.
Lemma a_rel_frame_ok : frame_ok Zring a_rel.
Proof.
  split; [exact a_ex_inverse|]. split.
  - intros u. split; intros [|[|i]] [|[|j]] Hi Hj; try (cbn in Hi, Hj; lia); cbn -[Z.add Z.mul Z.opp];
      unfold vopp, zm, idm; cbn -[Z.add Z.mul Z.opp]; lia.
  - intros u i j Hi Hj. cbn in Hi, Hj. assert (i = 0%nat) as -> by lia. assert (j = 1%nat) as -> by lia. reflexivity.
Qed.

(* ---- C23 ----
   relaxation_local a: the statements of the relaxation; vm: the moments of the cell;
   pull_local a: the statements of the time step, vf: the distributions coming from
   the neighbours, vfn: the new ones. *)
Theorem C23_relaxation : forall (K : ring) (a : algo K) (v : view K),
  al_relvel a = None -> eq_ok K a ->
  let m := vm v in let m' := vm (run (relaxation_local a) v) in
  (forall i, (i < al_nc a)%nat -> m' i = m i) /\
  (forall k, (k < al_n a)%nat -> al_s a m k = 0%K -> m' k = m k) /\
  (forall k, (k < al_n a)%nat -> al_s a m k = 1%K -> m' k = al_eq a m k).
Proof. exact relaxation_facts. Qed.
Print Assumptions C23_relaxation.

(* With and without relative velocity, the time step keeps the conserved moments of
   the distributions arriving in the cell. *)
Theorem C23_collision_conserves : forall (K : ring) (a : algo K) (v : view K),
  al_source a = [] -> eq_ok K a -> rel_ok K a -> frame_ok K a ->
  forall i, (i < al_nc a)%nat ->
  mvmul (al_n a) (al_M a) (vfn (run (pull_local a) v)) i = mvmul (al_n a) (al_M a) (vf v) i.
Proof.
  intros K a v HS He HR HF i Hi. destruct (al_relvel a) as [rel|] eqn:R.
  - exact (pull_rel_conserves K a rel v R HS (proj1 He) HF i Hi).
  - rewrite (mvmul_ext K _ _ _ _ (pull_spec K a v R He (source_ok_nil K a HS))).
    apply collide_conserves; try assumption. apply (proj1 (proj1 HF)).
Qed.
Print Assumptions C23_collision_conserves.

Lemma a_rel_rel_ok : rel_ok Zring a_rel.
Proof.
  split.
  - intros rel m m' [= <-] H i Hi. apply H. cbn. lia.
  - intros u u' i j H Hi Hj. cbn. rewrite (H 0%nat) by (cbn; lia). reflexivity.
Qed.
Definition v_ex : view Zring := @mkView Zring (fun k => Z.of_nat (k + 3)) (fun _ => 0%Z) (fun k => Z.of_nat (k + 4)) (fun _ => 9%Z).
Example C23_example : eq_ok Zring a_ex /\ eq_ok Zring a_rel /\ rel_ok Zring a_rel /\ frame_ok Zring a_rel /\
  map (vm (run (relaxation_local a_ex) v_ex)) [0; 1]%nat = [4; 19]%Z /\
  map (vfn (run (pull_local a_rel) v_ex)) [0; 1]%nat = [-31; 38]%Z.
Proof.
  split; [exact a_ex_eq_ok|]. split; [exact a_ex_eq_ok|]. split; [exact a_rel_rel_ok|].
  split; [exact a_rel_frame_ok|]. split; reflexivity.
Qed.

(* The step of BaseAlgorithm with a relative velocity mixes the frames: the second
   conserved moment is changed although nothing relaxes. *)
Definition a_bad : algo Zring := mkAlgo 2 2 1 (zm [[1; 1]; [0; 1]]%Z) (zm [[1; -1]; [0; 1]]%Z)
  (fun u => zm [[1; 0]; [- u 0%nat; 1]]%Z) (fun m k => m k) (fun _ _ => 0%Z) (Some (fun m _ => m 0%nat)) [] 5%Z.
Lemma a_bad_ok : eq_ok Zring a_bad /\ rel_ok Zring a_bad /\ frame_ok Zring a_bad.
Proof.
  split; [|split].
  - split; [cbn; lia|]. split; [intros m m' H k Hk; apply H; exact Hk|]. split; [intros m m' H k Hk; reflexivity|reflexivity].
  - split.
    + intros rel m m' [= <-] H i Hi. apply H. cbn. lia.
    + intros u u' i j H Hi Hj. cbn. rewrite (H 0%nat) by (cbn; lia). reflexivity.
  - split; [exact a_ex_inverse|]. split; [exact (proj1 (proj2 a_rel_frame_ok))|].
    intros u i j Hi Hj. cbn in Hi, Hj. lia.
Qed.
Theorem C23_base_relative_velocity_refuted : exists (a : algo Zring) (v : view Zring) i,
  al_source a = [] /\ eq_ok Zring a /\ rel_ok Zring a /\ frame_ok Zring a /\ (i < al_nc a)%nat /\
  mvmul (al_n a) (al_M a) (vfn (run (base_local a) v)) i <> mvmul (al_n a) (al_M a) (vf v) i.
Proof.
  exists a_bad, v_ex, 1%nat. destruct a_bad_ok as (H1 & H2 & H3).
  split; [reflexivity|]. split; [exact H1|]. split; [exact H2|]. split; [exact H3|]. split; [cbn; lia|].
  vm_compute. discriminate.
Qed.
Print Assumptions C23_base_relative_velocity_refuted.

(* ---- C24, one cell ---- *)
Theorem C24_equilibrium_fixed : forall (K : ring) (a : algo K) (v : view K), eq_ok K a ->
  let v1 := run (equilibrium_local a) v in
  (forall k, (k < al_n a)%nat -> vm v1 k = al_eq a (vm v) k) /\
  (forall k, (k < al_n a)%nat -> vm (run (equilibrium_local a) v1) k = vm v1 k) /\
  (al_relvel a = None -> forall k, (k < al_n a)%nat -> vm (run (relaxation_local a) v1) k = vm v1 k).
Proof. exact equilibrium_facts. Qed.
Print Assumptions C24_equilibrium_fixed.
Example C24_example : eq_ok Zring a_ex /\ map (vm (run (equilibrium_local a_ex) v_ex)) [0; 1]%nat = [4; 12]%Z.
Proof. split; [exact a_ex_eq_ok|reflexivity]. Qed.

(* ---- C25 ----  (the kernels f2m and m2f are always those of the fixed frame) *)
Theorem C25_f2m_m2f : forall (K : ring) (a : algo K) (v : view K),
  al_relvel a = None -> inverse (al_n a) (al_M a) (al_invM a) ->
  (forall k, (k < al_n a)%nat -> vfn (run (f2m_local a vf ++ m2f_local a) v) k = vf v k) /\
  (forall k, (k < al_n a)%nat -> vm (run (m2f_local a ++ f2m_local a vfn) v) k = vm v k).
Proof. exact f2m_m2f. Qed.
Print Assumptions C25_f2m_m2f.
Example C25_example : al_relvel a_ex = None /\ inverse (al_n a_ex) (al_M a_ex) (al_invM a_ex) /\
  map (vm (run (f2m_local a_ex vf) v_ex)) [0; 1]%nat = [7; 4]%Z.
Proof. split; [reflexivity|]. split; [exact a_ex_inverse|reflexivity]. Qed.

(* ---- C26 ---- *)
Theorem C26_pull_is_base_partial : forall (K : ring) (a : algo K) (v : view K),
  al_relvel a = None -> eq_ok K a -> source_ok K a ->
  forall k, (k < al_n a)%nat -> vfn (run (pull_local a) v) k = vfn (run (base_local a) v) k.
Proof.
  intros K a v R He Hs k Hk. rewrite (pull_spec K a v R He Hs k Hk), (base_spec K a v R He Hs k Hk). reflexivity.
Qed.
Print Assumptions C26_pull_is_base_partial.

(* The loops over the cells: f and fnew are distinct arrays, the local variables of
   the moments keep the values of the previous cell. *)
Theorem C26_pull_loop_is_base_loop : forall (K : ring) (a : algo K) (cell : Type) (cell_eqb : cell -> cell -> bool) nb
    (cells : list cell) (f fnew : cell -> vec K) (m u m' u' : vec K),
  (forall x y, cell_eqb x y = true <-> x = y) ->
  al_relvel a = None -> eq_ok K a -> source_ok K a ->
  forall x k, In x cells -> (k < al_n a)%nat ->
  fst (cython_loop cell_eqb nb (pull_local a) cells f (fnew, (m, u))) x k =
  fst (cython_loop cell_eqb nb (base_local a) cells f (fnew, (m', u'))) x k.
Proof.
  intros K a cell cell_eqb nb cells f fnew m u m' u' Hc R He Hs x k Hx Hk.
  rewrite <- !cython_loop_fluid_all.
  destruct (cython_fluid_spec K cell cell_eqb Hc nb (fun _ => true) (pull_local a) f cells (fnew, (m, u)) x) as [H _].
  destruct (H Hx eq_refl) as (fx & mm & uu & _ & E). rewrite E. clear H E.
  destruct (cython_fluid_spec K cell cell_eqb Hc nb (fun _ => true) (base_local a) f cells (fnew, (m', u')) x) as [H _].
  destruct (H Hx eq_refl) as (fx' & mm' & uu' & _ & E). rewrite E.
  rewrite (pull_spec K a _ R He Hs k Hk), (base_spec K a _ R He Hs k Hk). reflexivity.
Qed.
Print Assumptions C26_pull_loop_is_base_loop.

Definition a_src : algo Zring := mkAlgo 2 1 1 (zm [[1; 1]; [0; 1]]%Z) (zm [[1; -1]; [0; 1]]%Z)
  (fun _ => idm) (al_eq a_ex) (al_s a_ex) None [(0%nat, fun m => (m 0%nat * m 1%nat)%Z)] 5%Z.
Lemma a_src_ok : source_ok Zring a_src.
Proof.
  intros k g m m' [E|[]] H. injection E as <- <-.
  rewrite (H 0%nat), (H 1%nat) by (cbn; lia). reflexivity.
Qed.
Example C26_example : eq_ok Zring a_src /\ source_ok Zring a_src /\
  map (vfn (run (pull_local a_src) v_ex)) [0; 1]%nat = [644599; 878]%Z /\
  map (vfn (run (base_local a_src) v_ex)) [0; 1]%nat = [644599; 878]%Z.
Proof. split; [exact a_ex_eq_ok|]. split; [exact a_src_ok|]. split; reflexivity. Qed.

Theorem C26_relative_velocity_refuted : exists (a : algo Zring) (v : view Zring) k,
  eq_ok Zring a /\ source_ok Zring a /\ rel_ok Zring a /\ frame_ok Zring a /\ (k < al_n a)%nat /\
  vfn (run (pull_local a) v) k <> vfn (run (base_local a) v) k.
Proof.
  exists a_bad, v_ex, 1%nat. destruct a_bad_ok as (H1 & H2 & H3).
  split; [exact H1|]. split; [intros k g m m' []|]. split; [exact H2|]. split; [exact H3|]. split; [cbn; lia|].
  vm_compute. discriminate.
Qed.
Print Assumptions C26_relative_velocity_refuted.

(* ---- C30 ---- the guarded loop writes the new distributions of the fluid cells of
   the range, and of no other cell. *)
Theorem C30_solid_cells_not_written : forall (K : ring) (p : list (stmt K)) (cell : Type)
    (cell_eqb : cell -> cell -> bool) nb (fluid : cell -> bool) (cells : list cell) (f fnew : cell -> vec K) (m u : vec K),
  (forall x y, cell_eqb x y = true <-> x = y) ->
  forall x, (fluid x = false \/ ~ In x cells) ->
  fst (cython_loop_fluid cell_eqb nb fluid p cells f (fnew, (m, u))) x = fnew x.
Proof.
  intros K p cell cell_eqb nb fluid cells f fnew m u Hc x Hx.
  destruct (cython_fluid_spec K cell cell_eqb Hc nb fluid p f cells (fnew, (m, u)) x) as [_ H].
  apply H. tauto.
Qed.
Print Assumptions C30_solid_cells_not_written.
Theorem C30_fluid_cells_updated : forall (K : ring) (a : algo K) (cell : Type)
    (cell_eqb : cell -> cell -> bool) nb (fluid : cell -> bool) (cells : list cell) (f fnew : cell -> vec K) (m u : vec K),
  (forall x y, cell_eqb x y = true <-> x = y) -> eq_ok K a -> source_ok K a -> rel_ok K a ->
  forall x k, fluid x = true -> In x cells -> (k < al_n a)%nat ->
  fst (cython_loop_fluid cell_eqb nb fluid (pull_local a) cells f (fnew, (m, u))) x k =
  fst (cython_loop cell_eqb nb (pull_local a) cells f (fnew, (m, u))) x k.
Proof.
  intros K a cell cell_eqb nb fluid cells f fnew m u Hc He Hs HR x k Hx Hin Hk.
  rewrite <- cython_loop_fluid_all.
  destruct (cython_fluid_spec K cell cell_eqb Hc nb fluid (pull_local a) f cells (fnew, (m, u)) x) as [H _].
  destruct (H Hin Hx) as (fx & mm & uu & _ & E). rewrite E. clear H E.
  destruct (cython_fluid_spec K cell cell_eqb Hc nb (fun _ => true) (pull_local a) f cells (fnew, (m, u)) x) as [H _].
  destruct (H Hin eq_refl) as (fx' & mm' & uu' & _ & E). rewrite E.
  apply (pull_sim K a _ _ He Hs HR); [|exact Hk]. intros i _. reflexivity.
Qed.
Print Assumptions C30_fluid_cells_updated.
(* The whole step exchanges the two arrays: if they agree on a solid cell, they still
   do after any number of steps (bc: what the boundary conditions do to the array
   before the kernel; it does not touch the cell). *)
Definition fluid_step {K : ring} {cell : Type} (cell_eqb : cell -> cell -> bool) nb fluid (p : list (stmt K))
    (bc : (cell -> vec K) -> (cell -> vec K)) cells (m u : vec K) (st : (cell -> vec K) * (cell -> vec K)) :=
  let F1 := bc (fst st) in
  (fst (cython_loop_fluid cell_eqb nb fluid p cells F1 (snd st, (m, u))), F1).
Theorem C30_solid_cells_constant_partial : forall (K : ring) (p : list (stmt K)) (cell : Type)
    (cell_eqb : cell -> cell -> bool) nb (fluid : cell -> bool) bc (cells : list cell) (m u : vec K) x st,
  (forall x y, cell_eqb x y = true <-> x = y) -> fluid x = false ->
  (forall f, bc f x = f x) -> fst st x = snd st x ->
  forall t, fst (GlobalModel.iter t (fluid_step cell_eqb nb fluid p bc cells m u) st) x = fst st x.
Proof.
  intros K p cell cell_eqb nb fluid bc cells m u x st Hc Hx Hbc H0 t.
  assert (G : fst (GlobalModel.iter t (fluid_step cell_eqb nb fluid p bc cells m u) st) x = fst st x /\
              snd (GlobalModel.iter t (fluid_step cell_eqb nb fluid p bc cells m u) st) x = fst st x).
  { induction t as [|t [IH1 IH2]]; [split; [reflexivity|symmetry; exact H0]|].
    cbn [GlobalModel.iter]. set (s := GlobalModel.iter t _ _) in *. unfold fluid_step. cbn [fst snd]. split.
    - destruct (cython_fluid_spec K cell cell_eqb Hc nb fluid p (bc (fst s)) cells (snd s, (m, u)) x) as [_ H].
      rewrite H by (right; exact Hx). exact IH2.
    - rewrite Hbc. exact IH1. }
  exact (proj1 G).
Qed.
Print Assumptions C30_solid_cells_constant_partial.
Definition flagb (x y : bool) : bool := Bool.eqb x y.
Theorem C30_other_buffer_refuted : exists (a : algo Zring) (F Fnew : bool -> vec Zring) (fluid : bool -> bool),
  eq_ok Zring a /\ fluid false = false /\
  fst (fluid_step Bool.eqb (fun _ x => x) fluid (pull_local a) (fun f => f) [true; false] (fun _ => 0%Z) (fun _ => 0%Z) (F, Fnew)) false 0%nat
  <> F false 0%nat.
Proof.
  exists a_ex, (fun _ _ => 1%Z), (fun _ _ => 0%Z), (fun b => b).
  split; [exact a_ex_eq_ok|]. split; [reflexivity|]. vm_compute. discriminate.
Qed.
Print Assumptions C30_other_buffer_refuted.
Example C30_example :
  map (fst (cython_loop_fluid Bool.eqb (fun _ x => x) (fun b => b) (pull_local a_ex) [true; false]
    (fun _ _ => 1%Z) ((fun _ _ => 0%Z), ((fun _ => 0%Z), (fun _ => 0%Z)))) true) [0; 1]%nat = [-9; 11]%Z /\
  (forall x y, Bool.eqb x y = true <-> x = y).
Proof. split; [reflexivity|exact eqb_true_iff]. Qed.

(* ---- C31 ---- *)
Theorem C31_two_half_steps : forall (K : ring) (a : algo K) (v : view K),
  al_relvel a = None -> eq_ok K a -> source_ok K a ->
  (forall m k, (k < al_n a)%nat -> half_source K a m k =
     match source_of a k with
     | None => m k
     | Some g => (m k + al_hdt a * g (fun j => if (j <? k)%nat then half_source K a m j else m j))%K
     end) /\
  let m1 := half_source K a (mvmul (al_n a) (al_M a) (vf v)) in
  let m2 := fun k => (m1 k + al_s a m1 k * (al_eq a m1 k - m1 k))%K in
  let m3 := half_source K a m2 in
  forall k, (k < al_n a)%nat ->
    vfn (run (pull_local a) v) k = mvmul (al_n a) (al_invM a) m3 k /\
    vfn (run (base_local a) v) k = mvmul (al_n a) (al_invM a) m3 k.
Proof.
  intros K a v R He Hs. split; [intros m k Hk; apply half_source_facts; assumption|].
  cbn zeta. intros k Hk. split; [apply (pull_spec K a v R He Hs k Hk)|apply (base_spec K a v R He Hs k Hk)].
Qed.
Print Assumptions C31_two_half_steps.
(* decoupled a: the source of moment k does not read the moments before k which have
   a source.  Then each half step adds dt/2 times the source of the moments it starts
   from. *)
Theorem C31_half_step_partial : forall (K : ring) (a : algo K) m, source_ok K a -> decoupled K a ->
  forall k, (k < al_n a)%nat -> half_source K a m k =
    match source_of a k with None => m k | Some g => (m k + al_hdt a * g m)%K end.
Proof. exact half_source_decoupled. Qed.
Print Assumptions C31_half_step_partial.
Example C31_example : source_ok Zring a_src /\ decoupled Zring a_src /\ source_of a_src 1 = None /\
  map (half_source Zring a_src (fun k => Z.of_nat (k + 2))) [0; 1]%nat = [32; 3]%Z.
Proof.
  split; [exact a_src_ok|]. split; [|split; reflexivity].
  intros k g m m' E H. unfold source_of in E. cbn in E. destruct k as [|k]; [|discriminate]. cbn in E.
  injection E as <-.
  rewrite (H 0%nat), (H 1%nat); [reflexivity|cbn; lia|right; reflexivity|cbn; lia|left; lia].
Qed.
(* Coupled sources (a rotation): the second source sees the first moment already
   changed. *)
Theorem C31_coupled_refuted : exists (a : algo Zring) m k g,
  source_ok Zring a /\ (k < al_n a)%nat /\ source_of a k = Some g /\
  half_source Zring a m k <> (m k + al_hdt a * g m)%Z.
Proof.
  exists (mkAlgo 2 2 1 idm idm (fun _ => idm) (fun m => m) (fun _ _ => 0%Z : Zring) None
    [(0%nat, fun m => m 1%nat); (1%nat, fun m => (- m 0%nat)%Z)] 1%Z),
    (fun k => 1%Z), 1%nat, (fun m => (- m 0%nat)%Z).
  split; [|split; [cbn; lia|split; [reflexivity|vm_compute; discriminate]]].
  intros k g m m' [E|[E|[]]] H.
  - injection E as <- <-. apply H. cbn. lia.
  - injection E as <- <-. rewrite (H 0%nat) by (cbn; lia). reflexivity.
Qed.
Print Assumptions C31_coupled_refuted.
(* With a relative velocity the first half step of a conserved moment is lost. *)
Theorem C31_relative_velocity_refuted : exists (a : algo Zring) (v : view Zring) i,
  eq_ok Zring a /\ source_ok Zring a /\ rel_ok Zring a /\ frame_ok Zring a /\
  al_source a = [(i, fun _ => 1%Z)] /\ (i < al_nc a)%nat /\
  mvmul (al_n a) (al_M a) (vfn (run (pull_local a) v)) i <> (mvmul (al_n a) (al_M a) (vf v) i + (al_hdt a + al_hdt a))%Z.
Proof.
  exists (mkAlgo 2 1 1 (al_M a_rel) (al_invM a_rel) (al_Tu a_rel) (al_eq a_rel) (al_s a_rel) (al_relvel a_rel)
    [(0%nat, fun _ => 1%Z)] 5%Z), v_ex, 0%nat.
  split; [exact a_ex_eq_ok|]. split.
  { intros k g m m' [E|[]] H. injection E as <- <-. reflexivity. }
  split; [exact a_rel_rel_ok|]. split; [exact a_rel_frame_ok|]. split; [reflexivity|]. split; [cbn; lia|].
  vm_compute. discriminate.
Qed.
Print Assumptions C31_relative_velocity_refuted.

(* ---- C50 ---- frame P v invM u = Mu(u) * invM, the matrix T(u) of one scheme whose
   polynomials are P and whose velocities times la are v. *)
Theorem C50_change_of_frame_partial : forall (K : ring) d n (P : nat -> point K -> K) v invM,
  (forall j, (j < n)%nat -> length (v j) = d) -> inverse n (moment_matrix P v) invM ->
  translation_closed K d n P ->
  (forall u w i k, length u = d -> length w = d -> (i < n)%nat -> (k < n)%nat ->
     mmul n (frame K n P v invM u) (frame K n P v invM w) i k = frame K n P v invM (padd K u w) i k) /\
  (forall u, length u = d -> inverse n (frame K n P v invM u) (frame K n P v invM (popp K u))).
Proof.
  intros K d n P v invM Hv Hi Hc. split.
  - intros. apply (frame_mul K d n P v invM Hv Hi Hc); assumption.
  - intros. apply (frame_inverse K d n P v invM Hv Hi Hc); assumption.
Qed.
Print Assumptions C50_change_of_frame_partial.
(* What T(u) is: applied to the moments, it gives the moments in the moving frame, where
   the velocity of the particle j is w j = v j - u, coordinate by coordinate. *)
Theorem C50_moving_frame_moments : forall (K : ring) n (P : nat -> point K -> K) v invM u (w : nat -> point K) (f : vec K),
  inverse n (moment_matrix P v) invM ->
  (forall j, (j < n)%nat -> length (v j) = length u /\ length (w j) = length u /\
     forall d, (d < length u)%nat -> nth d (w j) 0%K = (nth d (v j) 0%K - nth d u 0%K)%K) ->
  forall i, (i < n)%nat ->
    mvmul n (frame K n P v invM u) (fun k => sum n (fun j => P k (v j) * f j)%K) i = sum n (fun j => P i (w j) * f j)%K.
Proof.
  intros K n P v invM u w f [_ HI] Hw i Hi.
  assert (E : forall j, (j < n)%nat -> shift_point u (v j) = w j).
  { intros j Hj. destruct (Hw j Hj) as (L1 & L2 & C). apply (nth_ext _ _ 0%K 0%K).
    - unfold shift_point. rewrite map_length, combine_length. lia.
    - intros d Hd. unfold shift_point in *. rewrite map_length, combine_length in Hd.
      rewrite (nth_indep _ 0%K ((fun p : K * K => (fst p - snd p)%K) (0%K, 0%K))) by (rewrite map_length, combine_length; lia).
      rewrite (map_nth (fun p : K * K => (fst p - snd p)%K)), combine_nth by lia. cbn [fst snd]. symmetry. apply C. lia. }
  unfold frame. change (fun k => sum n (fun j => P k (v j) * f j)%K) with (mvmul n (moment_matrix P v) f).
  rewrite <- mvmul_assoc. unfold mvmul at 1. apply sum_ext. intros j Hj. unfold rel_matrix. rewrite E by exact Hj. f_equal.
  apply mvmul_inverse; [exact HI|exact Hj].
Qed.
Print Assumptions C50_moving_frame_moments.
(* Several schemes, and conserved moments in front. *)
Theorem C50_assembled_frame : forall (K : ring) Bs Cs (sc : scheme K) cons,
  blocks_inverse K Bs Cs ->
  get_conserved (sc_EQ sc) 0 (map fst Bs) cons [] = Some (sc_consm sc) ->
  sc_Tu sc = assemble idm Bs -> sc_Tmu sc = assemble idm Cs ->
  let n := fold_right Nat.add 0%nat (map fst Bs) in
  inverse n (sc_Tu sc) (sc_Tmu sc) /\
  inverse n (sc_Tu (permute_consm_in_front sc)) (sc_Tmu (permute_consm_in_front sc)).
Proof.
  intros K Bs Cs sc cons HB Hc E1 E2 n.
  assert (HI : inverse n (sc_Tu sc) (sc_Tmu sc)) by (rewrite E1, E2; apply (assemble_inverse_idm K Bs Cs HB)).
  split; [exact HI|].
  assert (HF : found K (sc_EQ sc) n (sc_consm sc)).
  { apply (get_conserved_spec K (sc_EQ sc) n (map fst Bs) cons 0 [] _); [unfold n, total; lia| |exact Hc].
    split; [constructor|constructor]. }
  assert (Hok : swaps_ok n (permutations (sc_consm sc))).
  { apply permutations_ok; [|exact (found_length K _ n _ HF)].
    destruct HF as [HF _]. revert HF. apply Forall_impl. intros x [Hx _]. exact Hx. }
  pose proof (fold_swap K sc (permutations (sc_consm sc))) as (_ & _ & _ & _ & H5 & H6 & _).
  exact (inverse_conj K n (permutations (sc_consm sc)) _ _ _ _ Hok HI H5 H6).
Qed.
Print Assumptions C50_assembled_frame.
(* two schemes of two velocities in frames moving at 7 and -3, the conserved moments 5
   and 6 in front *)
Example C50_example_assembled :
  let T u := (2%nat, zm [[1; 0]; [- u; 1]]%Z) in
  let EQ := (fun k => nth k [@ESym Zring 5; @EFun Zring (fun _ => 0%Z); ESym 6; @EFun Zring (fun _ => 0%Z)] (ESym 0)) : nat -> eqexpr Zring in
  let sc := @mkScheme Zring EQ (fun _ => 0%Z) idm idm (assemble idm [T 7%Z; T (-3)%Z]) (assemble idm [T (-7)%Z; T 3%Z]) [(5, 0); (6, 2)]%nat in
  blocks_inverse Zring [T 7%Z; T (-3)%Z] [T (-7)%Z; T 3%Z] /\
  get_conserved EQ 0 [2; 2]%nat [[5]; [6]]%nat [] = Some (sc_consm sc) /\
  map (fun i => map (sc_Tu (permute_consm_in_front sc) i) [0; 1; 2; 3]%nat) [0; 1; 2; 3]%nat =
    [[1; 0; 0; 0]; [0; 1; 0; 0]; [-7; 0; 1; 0]; [0; 3; 0; 1]]%Z.
Proof.
  cbn zeta. split; [|split; reflexivity].
  repeat constructor; intros [|[|i]] [|[|j]] Hi Hj; try (cbn in *; lia); reflexivity.
Qed.
(* The collision in the moving frame, with one relaxation parameter for the moments
   which are not conserved, is the one of the fixed frame. *)
Theorem C50_single_relaxation_partial : forall (K : ring) (a : algo K) rel c (v : view K),
  al_relvel a = Some rel -> al_source a = [] -> eq_ok K a -> frame_ok K a ->
  (forall m i, (i < al_nc a)%nat -> al_s a m i = 0%K) ->
  (forall m i, (al_nc a <= i < al_n a)%nat -> al_s a m i = c m) ->
  forall k, (k < al_n a)%nat ->
    vfn (run (pull_local a) v) k = vfn (run (pull_local (fixed_frame K a)) v) k.
Proof.
  intros K a rel c v R HS He HF H0 Hc. exact (pull_rel_single K a rel c v R HS He HF (conj H0 Hc)).
Qed.
Print Assumptions C50_single_relaxation_partial.

Example C50_example :
  let P := (fun i x => if Nat.eqb i 0 then 1%Z else nth 0 x 0%Z) : nat -> point Zring -> Zring in
  let v := (fun j => [Z.of_nat j]) : nat -> point Zring in
  (forall j, (j < 2)%nat -> length (v j) = 1%nat) /\
  inverse 2 (moment_matrix P v) (zm [[1; -1]; [0; 1]]%Z) /\ translation_closed Zring 1 2 P /\
  map (fun i => map (frame Zring 2 P v (zm [[1; -1]; [0; 1]]%Z) [7%Z] i) [0; 1]%nat) [0; 1]%nat = [[1; 0]; [-7; 1]]%Z.
Proof.
  cbn zeta. split; [reflexivity|]. split; [split; intros [|[|i]] [|[|j]] Hi Hj; try lia; reflexivity|].
  split; [|reflexivity].
  intros u Hu. exists (zm [[1; 0]; [- nth 0 u 0%Z; 1]]%Z). intros [|[|i]] x Hi Hx; try lia.
  - destruct x as [|x [|y x']]; try discriminate. cbn -[Z.add Z.mul Z.opp Z.sub]. unfold zm; cbn -[Z.add Z.mul Z.opp Z.sub]. lia.
  - destruct x as [|x [|y x']]; try discriminate. destruct u as [|u [|w u']]; try discriminate.
    cbn -[Z.add Z.mul Z.opp Z.sub]. unfold zm; cbn -[Z.add Z.mul Z.opp Z.sub]. lia.
Qed.
Example C50_example_single : exists rel, al_relvel a_rel = Some rel /\ al_source a_rel = [] /\ eq_ok Zring a_rel /\
  frame_ok Zring a_rel /\ (forall m i, (i < al_nc a_rel)%nat -> al_s a_rel m i = 0%Z) /\
  (forall m i, (al_nc a_rel <= i < al_n a_rel)%nat -> al_s a_rel m i = 2%Z).
Proof.
  eexists. split; [reflexivity|]. split; [reflexivity|]. split; [exact a_ex_eq_ok|]. split; [exact a_rel_frame_ok|].
  split; intros m i Hi; cbn in Hi; [assert (i = 0%nat) as -> by lia|assert (i = 1%nat) as -> by lia]; reflexivity.
Qed.

(* Polynomials whose span is not invariant by translation (1 and X^2 for the
   velocities 0 and 1): T(u) and T(-u) are not inverse of each other. *)
Theorem C50_not_closed_refuted : exists (P : nat -> point Zring -> Zring) v invM u,
  (forall j, (j < 2)%nat -> length (v j) = 1%nat) /\ inverse 2 (moment_matrix P v) invM /\ length u = 1%nat /\
  ~ inverse 2 (frame Zring 2 P v invM u) (frame Zring 2 P v invM (popp Zring u)).
Proof.
  exists (fun i x => if Nat.eqb i 0 then 1%Z else (nth 0 x 0 * nth 0 x 0)%Z), (fun j => [Z.of_nat j]),
    (zm [[1; -1]; [0; 1]]%Z), [1%Z].
  split; [reflexivity|]. split; [split; intros [|[|i]] [|[|j]] Hi Hj; try lia; reflexivity|]. split; [reflexivity|].
  intros [H _]. specialize (H 1%nat 1%nat ltac:(lia) ltac:(lia)). vm_compute in H. discriminate.
Qed.
Print Assumptions C50_not_closed_refuted.
(* Equal relaxation parameters, also for the conserved moments: the moments used by
   the equilibria of the last rows are those of the moving frame. *)
Definition a_eqs (s : Z) (rel : bool) : algo Zring := mkAlgo 3 2 1 (zm [[1; 1; 1]; [0; 1; 2]; [0; 0; 1]]%Z)
  (zm [[1; -1; 1]; [0; 1; -2]; [0; 0; 1]]%Z)
  (fun u => zm [[1; 0; 0]; [- u 0%nat; 1; 0]; [u 0%nat * (u 0%nat + 1) / 2; - u 0%nat; 1]]%Z)
  (fun m k => if Nat.eqb k 2 then (2 * m 1%nat)%Z else m k) (fun _ _ => s)
  (if rel then Some (fun _ _ => 1%Z) else None) [] 1%Z.
Theorem C50_equal_parameters_refuted : exists (v : view Zring) k,
  eq_ok Zring (a_eqs 1 true) /\ (k < 3)%nat /\ al_M (a_eqs 1 true) = al_M (a_eqs 1 false) /\
  vfn (run (pull_local (a_eqs 1 true)) v) k <> vfn (run (pull_local (fixed_frame Zring (a_eqs 1 true))) v) k.
Proof.
  exists (@mkView Zring (fun k => nth k [2; -3; 2]%Z 0%Z) (fun _ => 0%Z) (fun _ => 0%Z) (fun _ => 0%Z)), 2%nat.
  split.
  { split; [cbn; lia|]. split; [|split].
    - intros m m' H k Hk. cbn. destruct (Nat.eqb_spec k 2) as [_|N]; [rewrite (H 1%nat) by (cbn; lia); reflexivity|].
      apply H. cbn in Hk |- *. lia.
    - intros m m' H k Hk. reflexivity.
    - intros m i Hi. cbn in *. destruct (Nat.eqb_spec i 2); [lia|reflexivity]. }
  split; [lia|]. split; [reflexivity|]. vm_compute. discriminate.
Qed.
Print Assumptions C50_equal_parameters_refuted.
