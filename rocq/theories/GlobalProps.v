(* Property theorems C24 (n steps), C27, C28, C29, C34: runs of any number of time
   steps on all the processes of a periodic domain.

   axes: for each direction the number of cells, the number of processes and the
   width of the ghost layer; ax_ok (ExchangeProofs.v): each process has at least as
   many cells as the width.  coords_ok axes c: c are the coordinates of a process;
   inner axes c i: i is the local index of an inner cell of this process;
   globc axes c i: the cell of the whole domain it stores.
   two_step: the time step with two storages (Cython), one_step: with one (NumPy). *)
From Verif Require Import PyBase VelocityModel GridModel StorageModel ExchangeProofs LinAlg AlgoModel AlgoProofs RelVelProofs KernelProofs GlobalModel GlobalProofs TorusProofs AlgoProps.
From Coq Require Import Sorting.Permutation.
Open Scope Z_scope.

(* the velocities have the dimension of the domain and are not longer than the ghost
   layer; it is what the domain computes (C11) *)
Definition fits (axes : list axis) (vel : nat -> list Z) n : Prop :=
  (length axes <= 3)%nat /\ Forall ax_ok axes /\ vel_ok axes vel n.
Lemma fits_len axes vel n : fits axes vel n -> forall k, (k < n)%nat -> length (vel k) = length axes.
Proof. intros (_ & _ & H) k Hk. apply (H k Hk). Qed.
Definition algo_ok (K : arith) (a : algo K) : Prop := eq_ok K a /\ source_ok K a /\ rel_ok K a.

Lemma two_holds (K : arith) (a : algo K) axes vel m0 u0 st G : fits axes vel (al_n a) -> algo_ok K a ->
  holds K axes (al_n a) (fst st) G ->
  forall t, holds K axes (al_n a) (fst (iter t (two_step axes vel (pull_local a) m0 u0) st)) (iter t (gstep K axes vel (pull_fun K a)) G).
Proof.
  intros (Hd & Hok & Hv) (He & Hs & HR) HG. apply two_run_holds; try assumption.
  - intros f f'. apply pull_fun_agree; assumption.
  - apply pull_computes; assumption.
Qed.
Lemma one_holds (K : arith) (a : algo K) axes vel st G : fits axes vel (al_n a) -> algo_ok K a ->
  holds K axes (al_n a) (fst st) G ->
  forall t, holds K axes (al_n a) (fst (iter t (one_step axes vel (pull_local a)) st)) (iter t (gstep K axes vel (pull_fun K a)) G).
Proof.
  intros (Hd & Hok & Hv) (He & Hs & HR) HG. apply one_run_holds; try assumption.
  - intros f f'. apply pull_fun_agree; assumption.
  - apply pull_computes; assumption.
  - apply pull_numpy.
Qed.


Lemma holds_ex (K : arith) axes vel n (F : fields K) : fits axes vel n -> exists G, holds K axes n F G.
Proof. intros (Hd & Hok & Hv). apply holds_exists; assumption. Qed.
(* arrays with the same values as a global field seen through another cell map *)
Lemma holds_by (K : arith) axes vel n (F F' : fields K) G phi : fits axes vel n ->
  holds K axes n F G ->
  (forall c i, coords_ok axes c -> inner axes c i -> gcell axes (phi (globc axes c i))) ->
  (forall c i c' i', coords_ok axes c -> inner axes c i -> coords_ok axes c' -> inner axes c' i' ->
     globc axes c' i' = phi (globc axes c i) -> agree K n (F' c i) (F c' i')) ->
  holds K axes n F' (fun g => G (phi g)).
Proof.
  intros (Hd & Hok & Hv) HF Hphi H c i Hc Hi.
  destruct (gcell_globc axes 0%nat Hd Hok _ (Hphi c i Hc Hi)) as (c' & i' & Hc' & Hi' & E).
  refine (agree_trans K n _ _ _ (H c i c' i' Hc Hi Hc' Hi' E) _). rewrite <- E. apply HF; assumption.
Qed.
(* ---- C27 ---- *)
Theorem C27_global_conservation : forall (K : ring) (a : algo K) axes vel m0 u0 st1 st2 cs i,
  fits axes vel (al_n a) -> Forall (fun x => 0 < ax_n x) axes ->
  al_source a = [] -> eq_ok K a -> rel_ok K a -> frame_ok K a ->
  (* cs: all the processes; total: sum over them and over their inner cells *)
  NoDup cs -> (forall c, In c cs <-> coords_ok axes c) -> (i < al_nc a)%nat ->
  let q f := mvmul (al_n a) (al_M a) f i in
  forall t,
    total K axes cs q (fst (iter t (two_step axes vel (pull_local a) m0 u0) st1)) = total K axes cs q (fst st1) /\
    total K axes cs q (fst (iter t (one_step axes vel (pull_local a)) st2)) = total K axes cs q (fst st2).
Proof.
  intros K a axes vel m0 u0 st1 st2 cs i Hf Hp HS He HR HF Hnd Hcs Hi q t.
  pose proof Hf as (Hd & Hok & Hv).
  assert (Hq : forall f f', agree K (al_n a) f f' -> q f = q f') by (intros f f' H; apply mvmul_ext; exact H).
  assert (HC : conserving K a).
  { split; [exact HS|]. split; [exact He|]. split; [exact HR|]. destruct (al_relvel a); [exact HF|exact (proj1 (proj1 HF))]. }
  assert (HA : algo_ok K a) by (split; [exact He|split; [apply source_ok_nil; exact HS|exact HR]]).
  assert (T : forall G, sumL (all_cells (map ax_n axes)) (fun g => q (iter t (gstep K axes vel (pull_fun K a)) G g)) =
                        sumL (all_cells (map ax_n axes)) (fun g => q (G g))).
  { intros G. apply (grun_total K axes vel (al_n a) (pull_fun K a) Hd Hp (fits_len _ _ _ Hf) (al_M a) i G).
    intros f. apply pull_conserves; assumption. }
  split.
  - destruct (holds_exists K axes (al_n a) Hd Hok (fst st1)) as [G HG].
    rewrite (total_global K axes vel (al_n a) Hd Hok (fits_len _ _ _ Hf) cs q _ _ Hnd Hcs Hq HG).
    rewrite (total_global K axes vel (al_n a) Hd Hok (fits_len _ _ _ Hf) cs q _ _ Hnd Hcs Hq (two_holds K a axes vel m0 u0 st1 G Hf HA HG t)).
    apply T.
  - destruct (holds_exists K axes (al_n a) Hd Hok (fst st2)) as [G HG].
    rewrite (total_global K axes vel (al_n a) Hd Hok (fits_len _ _ _ Hf) cs q _ _ Hnd Hcs Hq HG).
    rewrite (total_global K axes vel (al_n a) Hd Hok (fits_len _ _ _ Hf) cs q _ _ Hnd Hcs Hq (one_holds K a axes vel st2 G Hf HA HG t)).
    apply T.
Qed.
Print Assumptions C27_global_conservation.

(* ---- C24, any number of steps ---- *)
Lemma pull_fun_equilibrium (K : ring) (a : algo K) f : al_source a = [] -> eq_ok K a -> frame_ok K a ->
  (al_relvel a <> None -> forall m i, (i < al_nc a)%nat -> al_s a m i = 0%K) ->
  at_equilibrium K a f -> agree K (al_n a) (pull_fun K a f) f.
Proof.
  intros HS He HF H0 Hf. destruct (al_relvel a) as [rel|] eqn:R.
  - apply (pull_rel_equilibrium K a rel); try assumption. apply H0. discriminate.
  - refine (agree_trans K _ _ _ _ (pull_fun_collide K a f He (source_ok_nil K a HS) R) _).
    apply collide_equilibrium; try assumption. apply (proj2 (proj1 HF)).
Qed.
Theorem C24_uniform_equilibrium_partial : forall (K : ring) (a : algo K) axes vel m0 u0 st1 st2 (f : vec K),
  fits axes vel (al_n a) -> Forall (fun x => 0 < ax_n x) axes ->
  al_source a = [] -> eq_ok K a -> rel_ok K a -> frame_ok K a ->
  (al_relvel a <> None -> forall m i, (i < al_nc a)%nat -> al_s a m i = 0%K) ->
  (* the moments of f are their own equilibrium *)
  (let m := mvmul (al_n a) (al_M a) f in forall k, (k < al_n a)%nat -> m k = al_eq a m k) ->
  (forall c i k, coords_ok axes c -> inner axes c i -> (k < al_n a)%nat -> fst st1 c i k = f k /\ fst st2 c i k = f k) ->
  forall t c i k, coords_ok axes c -> inner axes c i -> (k < al_n a)%nat ->
    fst (iter t (two_step axes vel (pull_local a) m0 u0) st1) c i k = f k /\
    fst (iter t (one_step axes vel (pull_local a)) st2) c i k = f k.
Proof.
  intros K a axes vel m0 u0 st1 st2 f Hf Hp HS He HR HF H0 Heq H t c i k Hc Hi Hk.
  pose proof Hf as (Hd & Hok & Hv).
  assert (HA : algo_ok K a) by (split; [exact He|split; [apply source_ok_nil; exact HS|exact HR]]).
  assert (U : forall g, cell_ok (map ax_n axes) g -> agree K (al_n a) (iter t (gstep K axes vel (pull_fun K a)) (fun _ => f) g) f).
  { apply (grun_uniform K axes vel (al_n a) (pull_fun K a) Hp (fits_len _ _ _ Hf)).
    - intros x x'. apply pull_fun_agree; [exact He|apply source_ok_nil; exact HS|exact HR].
    - apply pull_fun_equilibrium; assumption.
    - intros g _ j _. reflexivity. }
  assert (Cg : cell_ok (map ax_n axes) (globc axes c i)) by (apply gcell_cell_ok; apply globc_gcell; assumption).
  split.
  - rewrite (two_holds K a axes vel m0 u0 st1 (fun _ => f) Hf HA (fun c i Hc Hi k Hk => proj1 (H c i k Hc Hi Hk)) t c i Hc Hi k Hk).
    apply U; assumption.
  - rewrite (one_holds K a axes vel st2 (fun _ => f) Hf HA (fun c i Hc Hi k Hk => proj2 (H c i k Hc Hi Hk)) t c i Hc Hi k Hk).
    apply U; assumption.
Qed.
Print Assumptions C24_uniform_equilibrium_partial.

(* With a relative velocity and a nonzero relaxation parameter given to a conserved
   moment, an equilibrium state is changed by the time step. *)
Theorem C24_relative_velocity_refuted : exists (a : algo Zring) (f : vec Zring) k,
  al_source a = [] /\ eq_ok Zring a /\ frame_ok Zring a /\
  (let m := mvmul (al_n a) (al_M a) f in forall k, (k < al_n a)%nat -> m k = al_eq a m k) /\
  (k < al_n a)%nat /\
  vfn (run (pull_local a) (mkView f (fun _ => 0) (fun _ => 0) (fun _ => 0))) k <> f k.
Proof.
  exists (mkAlgo 3 2 1 (zm [[1; 1; 1]; [0; 1; 2]; [0; 0; 1]]) (zm [[1; -1; 1]; [0; 1; -2]; [0; 0; 1]])
    (fun u => zm [[1; 0; 0]; [- u 0%nat; 1; 0]; [0; 0; 1]])
    (fun m k => if Nat.eqb k 2 then 2 * m 1%nat else m k) (fun _ k => nth k [0; 1; 1] 0)
    (Some (fun _ _ => 1)) [] 1 : algo Zring), (fun k => nth k [2; -3; 2] 0), 2%nat.
  split; [reflexivity|]. split; [|split; [|split; [|split]]].
  - split; [cbn; lia|]. split; [|split].
    + intros m m' H k Hk. cbn. destruct (Nat.eqb_spec k 2) as [_|N]; [rewrite (H 1%nat) by (cbn; lia); reflexivity|].
      apply H. cbn in Hk |- *. lia.
    + intros m m' H k Hk. reflexivity.
    + intros m i Hi. cbn in *. destruct (Nat.eqb_spec i 2); [lia|reflexivity].
  - split; [|split].
    + split; intros [|[|[|i]]] [|[|[|j]]] Hi Hj; cbn in Hi, Hj; try lia; reflexivity.
    + intros u. split; intros [|[|[|i]]] [|[|[|j]]] Hi Hj; try (cbn in Hi, Hj; lia);
        cbn -[Z.add Z.mul Z.opp]; unfold vopp, zm, idm; cbn -[Z.add Z.mul Z.opp]; lia.
    + intros u i j Hi Hj. cbn in Hi, Hj. assert (j = 2%nat) as -> by lia.
      destruct i as [|[|i]]; [reflexivity|reflexivity|lia].
  - intros m [|[|[|k]]] Hk; cbn in Hk; try lia; reflexivity.
  - cbn. lia.
  - vm_compute. discriminate.
Qed.
Print Assumptions C24_relative_velocity_refuted.

(* ---- C28 ---- *)
Lemma transport_computes (K : arith) (a : algo K) : computes K (al_n a) (fun f => f) (transport_local a).
Proof. intros v. apply transport_spec. Qed.
Lemma transport_numpy (K : arith) (a : algo K) : numpy_right K (transport_local a).
Proof.
  intros nb inn F m u x Hx.
  set (loc := fun y => mkView (fun k => F (nb k y) k) (F y) (m y) (u y)).
  destruct (numpy_transport K (list Z) nb inn (al_n a) F m u loc) as (F' & E & T & _).
  { intros y _. cbn. auto. } { reflexivity. }
  exists (F x), (m x), (u x). change (mkView _ _ _ _) with (loc x).
  unfold transport_local. rewrite E. apply (T x Hx).
Qed.
(* t transports (kernel and exchange of the storages): the value of the velocity k in a
   cell is the one which was t*v_k cells before, indices modulo the domain *)
Theorem C28_transport : forall (K : arith) (a : algo K) axes vel m0 u0 st1 st2 t c i c' i' k,
  fits axes vel (al_n a) -> Forall (fun x => 0 < ax_n x) axes ->
  coords_ok axes c -> inner axes c i -> coords_ok axes c' -> inner axes c' i' -> (k < al_n a)%nat ->
  (forall d, (d < length axes)%nat ->
     nth d (globc axes c' i') 0 = (nth d (globc axes c i) 0 - Z.of_nat t * nth d (vel k) 0) mod ax_n (nth d axes dax)) ->
  fst (iter t (two_step axes vel (transport_local a) m0 u0) st1) c i k = fst st1 c' i' k /\
  fst (iter t (one_step axes vel (transport_local a)) st2) c i k = fst st2 c' i' k.
Proof.
  intros K a axes vel m0 u0 st1 st2 t c i c' i' k Hf Hp Hc Hi Hc' Hi' Hk HE. pose proof Hf as (Hd & Hok & Hv).
  pose proof (fits_len _ _ _ Hf k Hk) as Lv.
  assert (Lg : length (globc axes c i) = length axes) by (apply globc_length; try assumption; apply Hi).
  assert (Lg' : length (globc axes c' i') = length axes) by (apply globc_length; try assumption; apply Hi').
  assert (E : translate (map ax_n axes) (map (fun x => - Z.of_nat t * x) (vel k)) (globc axes c i) = globc axes c' i').
  { apply (nth_ext _ _ 0 0).
    - unfold translate, wrapn. rewrite !map2_length; rewrite ?map_length; rewrite ?map2_length; rewrite ?map_length; lia.
    - unfold translate, wrapn. rewrite map2_length by (rewrite ?map2_length; rewrite ?map_length; lia).
      rewrite map2_length by (rewrite ?map_length; lia).
      intros d Hd'. rewrite HE by lia.
      rewrite (map2_nth _ 0 0) by (rewrite ?map2_length; rewrite ?map_length; lia).
      rewrite (map2_nth _ 0 0) by (rewrite ?map_length; lia).
      rewrite (nth_indep (map ax_n axes) 0 (ax_n dax)) by (rewrite map_length; lia). rewrite map_nth. f_equal.
      rewrite (nth_indep (map _ (vel k)) 0 (- Z.of_nat t * 0)) by (rewrite map_length; lia).
      rewrite (map_nth (fun x => - Z.of_nat t * x)). lia. }
  assert (Cg : cell_ok (map ax_n axes) (globc axes c i)) by (apply gcell_cell_ok; apply globc_gcell; assumption).
  split.
  - destruct (holds_ex K axes vel (al_n a) (fst st1) Hf) as [G HG].
    rewrite (two_run_holds K axes vel (al_n a) (fun f => f) Hd Hok Hv (fun f f' H => H) _ m0 u0 st1 G (transport_computes K a) HG t c i Hc Hi k Hk).
    rewrite (grun_transport K axes vel (al_n a) (fun f => f) Hp (fits_len _ _ _ Hf) G k Hk (fun f => eq_refl) t _ Cg).
    rewrite E. symmetry. apply HG; assumption.
  - destruct (holds_ex K axes vel (al_n a) (fst st2) Hf) as [G HG].
    rewrite (one_run_holds K axes vel (al_n a) (fun f => f) Hd Hok Hv (fun f f' H => H) _ st2 G (transport_computes K a) (transport_numpy K a) HG t c i Hc Hi k Hk).
    rewrite (grun_transport K axes vel (al_n a) (fun f => f) Hp (fits_len _ _ _ Hf) G k Hk (fun f => eq_refl) t _ Cg).
    rewrite E. symmetry. apply HG; assumption.
Qed.
Print Assumptions C28_transport.

(* nothing is lost or duplicated: the values of a distribution in all the inner cells of
   all the processes are the same up to the order *)
Definition values {K : arith} axes (cs : list (list nat)) (k : nat) (F : fields K) : list K :=
  flat_map (fun c => map (fun x => F c x k) (loop_cells axes c)) cs.
Lemma values_global (K : arith) axes vel n cs k (F : fields K) G : fits axes vel n -> NoDup cs ->
  (forall c, In c cs <-> coords_ok axes c) -> (k < n)%nat -> holds K axes n F G ->
  Permutation (values axes cs k F) (map (fun g => G g k) (all_cells (map ax_n axes))).
Proof.
  intros Hf Hnd Hcs Hk HF. pose proof Hf as (Hd & Hok & Hv).
  rewrite <- (owner_perm axes vel n Hd Hok (fits_len _ _ _ Hf) cs Hnd Hcs).
  unfold values. rewrite flat_map_concat_map, (flat_map_concat_map (fun c => map (globc axes c) _)).
  rewrite concat_map, map_map. match goal with |- Permutation ?x ?y => assert (E : x = y); [|rewrite E; reflexivity] end.
  f_equal. apply map_ext_in.
  intros c Hc. rewrite map_map. apply map_ext_in. intros x Hx. apply Hcs in Hc. apply HF; [exact Hc| |exact Hk].
  apply (loop_spec axes Hd); assumption.
Qed.
Theorem C28_permutation : forall (K : arith) (a : algo K) axes vel m0 u0 st1 st2 cs t k,
  fits axes vel (al_n a) -> Forall (fun x => 0 < ax_n x) axes ->
  NoDup cs -> (forall c, In c cs <-> coords_ok axes c) -> (k < al_n a)%nat ->
  Permutation (values axes cs k (fst (iter t (two_step axes vel (transport_local a) m0 u0) st1))) (values axes cs k (fst st1)) /\
  Permutation (values axes cs k (fst (iter t (one_step axes vel (transport_local a)) st2))) (values axes cs k (fst st2)).
Proof.
  intros K a axes vel m0 u0 st1 st2 cs t k Hf Hp Hnd Hcs Hk. pose proof Hf as (Hd & Hok & Hv). split.
  - destruct (holds_ex K axes vel (al_n a) (fst st1) Hf) as [G HG].
    rewrite (values_global K axes vel (al_n a) cs k _ G Hf Hnd Hcs Hk HG).
    rewrite (values_global K axes vel (al_n a) cs k _ _ Hf Hnd Hcs Hk
      (two_run_holds K axes vel (al_n a) (fun f => f) Hd Hok Hv (fun f f' H => H) _ m0 u0 st1 G (transport_computes K a) HG t)).
    apply (grun_permutation K axes vel (al_n a) (fun f => f) Hp (fits_len _ _ _ Hf) G k Hk (fun f => eq_refl) t).
  - destruct (holds_ex K axes vel (al_n a) (fst st2) Hf) as [G HG].
    rewrite (values_global K axes vel (al_n a) cs k _ G Hf Hnd Hcs Hk HG).
    rewrite (values_global K axes vel (al_n a) cs k _ _ Hf Hnd Hcs Hk
      (one_run_holds K axes vel (al_n a) (fun f => f) Hd Hok Hv (fun f f' H => H) _ st2 G (transport_computes K a) (transport_numpy K a) HG t)).
    apply (grun_permutation K axes vel (al_n a) (fun f => f) Hp (fits_len _ _ _ Hf) G k Hk (fun f => eq_refl) t).
Qed.
Print Assumptions C28_permutation.

(* the whole time step commutes with the translations of the domain: shifted F F' says
   that the value of F' in a cell is the value of F w cells further *)
Definition shifted {K : arith} axes n (w : list Z) (F F' : fields K) : Prop :=
  forall c i c' i' k, coords_ok axes c -> inner axes c i -> coords_ok axes c' -> inner axes c' i' -> (k < n)%nat ->
    globc axes c' i' = translate (map ax_n axes) w (globc axes c i) -> F' c i k = F c' i' k.
Theorem C28_translations : forall (K : arith) (a : algo K) axes vel m0 u0 (F F' Fn Fn' : fields K) x x' w,
  fits axes vel (al_n a) -> Forall (fun x => 0 < ax_n x) axes -> algo_ok K a -> length w = length axes ->
  shifted axes (al_n a) w F F' -> forall t,
  shifted axes (al_n a) w (fst (iter t (two_step axes vel (pull_local a) m0 u0) (F, Fn)))
                          (fst (iter t (two_step axes vel (pull_local a) m0 u0) (F', Fn'))) /\
  shifted axes (al_n a) w (fst (iter t (one_step axes vel (pull_local a)) (F, x)))
                          (fst (iter t (one_step axes vel (pull_local a)) (F', x'))).
Proof.
  intros K a axes vel m0 u0 F F' Fn Fn' x x' w Hf Hp HA Hw HS t.
  assert (HL : forall f f', agree K (al_n a) f f' -> agree K (al_n a) (pull_fun K a f) (pull_fun K a f')).
  { intros f f'. destruct HA as (He & Hs & HR). apply pull_fun_agree; assumption. }
  pose proof Hf as (Hd & Hok & Hv).
  assert (Main : forall A A', (forall G, holds K axes (al_n a) F G -> holds K axes (al_n a) A (iter t (gstep K axes vel (pull_fun K a)) G)) ->
    (forall G, holds K axes (al_n a) F' G -> holds K axes (al_n a) A' (iter t (gstep K axes vel (pull_fun K a)) G)) ->
    shifted axes (al_n a) w A A').
  { intros A A' H1 H2 c i c' i' k Hc Hi Hc' Hi' Hk E.
    destruct (holds_ex K axes vel (al_n a) F Hf) as [G HG].
    assert (HG' : holds K axes (al_n a) F' (fun g => G (translate (map ax_n axes) w g))).
    { apply (holds_by K axes vel (al_n a) F F' G _ Hf HG).
      - intros c0 i0 Hc0 Hi0. apply gcell_cell_ok. apply translate_ok; [apply sizes_pos; exact Hp|rewrite map_length; exact Hw|].
        rewrite map_length. apply globc_length; try assumption; apply Hi0.
      - intros c0 i0 c1 i1 A1 A2 A3 A4 A5 j Hj. apply (HS c0 i0 c1 i1 j); assumption. }
    rewrite (H2 _ HG' c i Hc Hi k Hk), (H1 _ HG c' i' Hc' Hi' k Hk). rewrite E.
    apply (grun_translate K axes vel (al_n a) _ Hp (fits_len _ _ _ Hf) w G Hw HL t); [|exact Hk].
    apply gcell_cell_ok. apply globc_gcell; assumption. }
  split; apply Main; intros G HG.
  - exact (two_holds K a axes vel m0 u0 (F, Fn) G Hf HA HG t).
  - exact (two_holds K a axes vel m0 u0 (F', Fn') G Hf HA HG t).
  - exact (one_holds K a axes vel (F, x) G Hf HA HG t).
  - exact (one_holds K a axes vel (F', x') G Hf HA HG t).
Qed.
Print Assumptions C28_translations.

(* ---- C29 ---- two process grids of the same domain (the second one may have one
   process); glued: equal values in the cells of the domain *)
Definition glued {K : arith} axes axes' n (F F' : fields K) : Prop :=
  forall c i c' i' k, coords_ok axes c -> inner axes c i -> coords_ok axes' c' -> inner axes' c' i' -> (k < n)%nat ->
    globc axes c i = globc axes' c' i' -> F c i k = F' c' i' k.
Theorem C29_parallel_is_serial : forall (K : arith) (a : algo K) axes axes' vel m0 u0 m0' u0' (F F' Fn Fn' : fields K) x x',
  fits axes vel (al_n a) -> fits axes' vel (al_n a) -> map ax_n axes = map ax_n axes' -> algo_ok K a ->
  glued axes axes' (al_n a) F F' -> forall t,
  glued axes axes' (al_n a) (fst (iter t (two_step axes vel (pull_local a) m0 u0) (F, Fn)))
                            (fst (iter t (two_step axes' vel (pull_local a) m0' u0') (F', Fn'))) /\
  glued axes axes' (al_n a) (fst (iter t (one_step axes vel (pull_local a)) (F, x)))
                            (fst (iter t (one_step axes' vel (pull_local a)) (F', x'))).
Proof.
  intros K a axes axes' vel m0 u0 m0' u0' F F' Fn Fn' x x' Hf Hf' Hn HA HG t.
  destruct (holds_ex K axes vel (al_n a) F Hf) as [G G1].
  pose proof Hf as (Hd & Hok & Hv). pose proof Hf' as (Hd' & Hok' & Hv').
  assert (G2 : holds K axes' (al_n a) F' G).
  { intros c' i' Hc' Hi' k Hk.
    assert (C : gcell axes (globc axes' c' i')).
    { apply gcell_cell_ok. rewrite Hn. apply gcell_cell_ok. apply globc_gcell; assumption. }
    destruct (gcell_globc axes 0%nat Hd Hok _ C) as (c & i & Hc & Hi & E).
    rewrite <- (HG c i c' i' k Hc Hi Hc' Hi' Hk E). rewrite <- E. apply G1; assumption. }
  assert (ES : forall L G, gstep K axes vel L G = gstep K axes' vel L G) by (intros; unfold gstep, wrap; rewrite Hn; reflexivity).
  assert (EI : forall L G, iter t (gstep K axes vel L) G = iter t (gstep K axes' vel L) G).
  { intros L G0. induction t as [|s IH]; [reflexivity|]. cbn [iter]. rewrite IH. apply ES. }
  split; intros c i c' i' k Hc Hi Hc' Hi' Hk E.
  - rewrite (two_holds K a axes vel m0 u0 (F, Fn) G Hf HA G1 t c i Hc Hi k Hk).
    rewrite (two_holds K a axes' vel m0' u0' (F', Fn') G Hf' HA G2 t c' i' Hc' Hi' k Hk). rewrite E, EI. reflexivity.
  - rewrite (one_holds K a axes vel (F, x) G Hf HA G1 t c i Hc Hi k Hk).
    rewrite (one_holds K a axes' vel (F', x') G Hf' HA G2 t c' i' Hc' Hi' k Hk). rewrite E, EI. reflexivity.
Qed.
Print Assumptions C29_parallel_is_serial.

(* ---- C34 ---- *)
Theorem C34_one_or_two_buffers : forall (K : arith) (a : algo K) axes vel m0 u0 (F F' Fnew : fields K) x,
  fits axes vel (al_n a) -> algo_ok K a ->
  (forall c i k, coords_ok axes c -> inner axes c i -> (k < al_n a)%nat -> F c i k = F' c i k) ->
  forall t c i k, coords_ok axes c -> inner axes c i -> (k < al_n a)%nat ->
    fst (iter t (two_step axes vel (pull_local a) m0 u0) (F, Fnew)) c i k =
    fst (iter t (one_step axes vel (pull_local a)) (F', x)) c i k.
Proof.
  intros K a axes vel m0 u0 F F' Fnew x Hf HA HF t c i k Hc Hi Hk.
  destruct (holds_ex K axes vel (al_n a) F Hf) as [G G1].
  assert (G2 : holds K axes (al_n a) F' G).
  { intros c0 i0 Hc0 Hi0 j Hj. rewrite <- (HF c0 i0 j Hc0 Hi0 Hj). apply G1; assumption. }
  rewrite (two_holds K a axes vel m0 u0 (F, Fnew) G Hf HA G1 t c i Hc Hi k Hk).
  rewrite (one_holds K a axes vel (F', x) G Hf HA G2 t c i Hc Hi k Hk). reflexivity.
Qed.
Print Assumptions C34_one_or_two_buffers.

(* With boundary conditions: B is the whole boundary step, of which we only use that the
   values it leaves in the cells read by the kernel are determined by the inner values. *)
Theorem C34_boundary_conditions_partial : forall (K : arith) (a : algo K) axes vel (B : fields K -> fields K) m0 u0 (F F' Fnew : fields K) x,
  (length axes <= 3)%nat -> algo_ok K a ->
  let same (P P' : fields K) := forall c i k, coords_ok axes c -> inner axes c i -> (k < al_n a)%nat -> P c i k = P' c i k in
  (forall P P', same P P' -> forall c i k, coords_ok axes c -> inner axes c i -> (k < al_n a)%nat ->
     B P c (shift_cell vel k i) k = B P' c (shift_cell vel k i) k) ->
  same F F' ->
  forall t, same (fst (iter t (two_step_bc axes vel B (pull_local a) m0 u0) (F, Fnew)))
                 (fst (iter t (one_step_bc axes vel B (pull_local a)) (F', x))).
Proof.
  intros K a axes vel B m0 u0 F F' Fnew x Hd (He & Hs & HR) same HB HF.
  induction t as [|t IH]; [exact HF|]. cbn [iter].
  set (s1 := iter t (two_step_bc _ _ _ _ _ _) _) in *. set (s2 := iter t (one_step_bc _ _ _ _) _) in *.
  intros c i k Hc Hi Hk.
  assert (E1 : agree K (al_n a) (fst (two_step_bc axes vel B (pull_local a) m0 u0 s1) c i)
     (pull_fun K a (fun k => B (fst s1) c (shift_cell vel k i) k))).
  { unfold two_step_bc. cbn [fst]. rewrite <- cython_loop_fluid_all.
    destruct (cython_fluid_spec K (list Z) list_eqb list_eqb_spec (shift_cell vel) (fun _ => true) (pull_local a)
      (B (fst s1) c) (loop_cells axes c) (snd s1 c, (m0, u0)) i) as [H _].
    destruct (H (proj2 (loop_spec axes Hd c i Hc) Hi) eq_refl) as (fx & mx & ux & _ & E).
    refine (agree_trans K _ _ _ _ (fun j _ => f_equal (fun f => f j) E) _).
    apply (pull_computes K a He Hs HR). }
  assert (E2 : agree K (al_n a) (fst (one_step_bc axes vel B (pull_local a) s2) c i)
     (pull_fun K a (fun k => B (fst s2) c (shift_cell vel k i) k))).
  { destruct (pull_numpy K a (shift_cell vel) (in_loop axes c) (B (fst s2) c) (fst (snd s2) c) (snd (snd s2) c) i
      (proj2 (in_loop_spec axes 0%nat Hd c i Hc) Hi)) as (fn & mx & ux & E).
    unfold one_step_bc. cbn [fst].
    refine (agree_trans K _ _ _ _ (fun j _ => f_equal (fun f => f j) E) _).
    apply (pull_computes K a He Hs HR). }
  rewrite (E1 k Hk), (E2 k Hk). apply (pull_fun_agree K a); try assumption.
  intros j Hj. apply HB; assumption.
Qed.
Print Assumptions C34_boundary_conditions_partial.

(* If the boundary step leaves an old value in a cell read by the kernel (here: it does
   nothing at all), the two storages show their own old values there. *)
Theorem C34_stale_ghosts_refuted : exists (a : algo Zring) axes vel (F Fnew : fields Zring) x c i k,
  (length axes <= 3)%nat /\ Forall ax_ok axes /\ vel_ok axes vel (al_n a) /\ algo_ok Zring a /\
  coords_ok axes c /\ inner axes c i /\ (k < al_n a)%nat /\
  fst (iter 2 (two_step_bc axes vel (fun F => F) (pull_local a) (fun _ => 0) (fun _ => 0)) (F, Fnew)) c i k <>
  fst (iter 2 (one_step_bc axes vel (fun F => F) (pull_local a)) (F, x)) c i k.
Proof.
  exists a_ex, [mkAxis 2 1 1], (fun k => [Z.of_nat k]), (fun _ _ _ => 1), (fun _ _ _ => 0),
    ((fun _ _ _ => 0), (fun _ _ _ => 0)), [0%nat], [1], 0%nat.
  split; [cbn; lia|]. split; [repeat constructor; cbn; try lia; intros [|c] Hc; try lia; vm_compute; discriminate|].
  split; [intros [|[|k]] Hk; cbn in Hk; try lia; (split; [reflexivity|intros [|d] Hd; cbn in *; lia])|].
  split; [split; [exact a_ex_eq_ok|split; [intros k g m m' []|split; [intros rel m m' E; discriminate|reflexivity]]]|].
  split; [repeat constructor|]. split; [split; [reflexivity|intros [|d] Hd; cbn in Hd; [vm_compute; split; [discriminate|reflexivity]|lia]]|].
  split; [cbn; lia|]. vm_compute. discriminate.
Qed.
Print Assumptions C34_stale_ghosts_refuted.

(* ---- examples: 5 x 3 cells, 2 x 1 processes, velocities (0, 0) and (1, -1) ---- *)
Definition ax2 : list axis := [mkAxis 5 2 1; mkAxis 3 1 1].
Definition ax1 : list axis := [mkAxis 5 1 1; mkAxis 3 1 1].
Definition vel2 (k : nat) : list Z := [Z.of_nat k; - Z.of_nat k].
Lemma fits_ex : fits ax2 vel2 2 /\ fits ax1 vel2 2.
Proof.
  assert (V : forall ax, ax = ax2 \/ ax = ax1 -> vel_ok ax vel2 2).
  { intros ax [->| ->] [|[|k]] Hk; try lia; (split; [reflexivity|intros [|[|d]] Hd; cbn in *; lia]). }
  assert (O : forall n p h, (p = 1 \/ p = 2)%nat -> In (n, p, h) [(5, 2%nat, 1); (5, 1%nat, 1); (3, 1%nat, 1)] -> ax_ok (mkAxis n p h)).
  { intros n p h _ [E|[E|[E|[]]]]; injection E as <- <- <-; (split; [cbn; lia|split; [cbn; lia|split; [cbn; lia|]]]);
      intros [|[|c]] Hc; cbn in Hc; try lia; vm_compute; discriminate. }
  split; (split; [cbn; lia|split; [|apply V; auto]]); repeat constructor; apply O; cbn; auto.
Qed.
Lemma algo_ok_ex : algo_ok Zring a_ex /\ algo_ok Zring a_rel.
Proof.
  split; (split; [exact a_ex_eq_ok|split; [intros k g m m' []|]]); [|exact a_rel_rel_ok].
  split; [intros rel m m' E; discriminate|reflexivity].
Qed.
Definition F_ex : fields Zring := fun c i k =>
  Z.of_nat (2 * nth 0 c 0%nat) + 3 * nth 0 i 0 + nth 1 i 0 * nth 1 i 0 + Z.of_nat k.
Example C27_example : fits ax2 vel2 2 /\ Forall (fun x => 0 < ax_n x) ax2 /\ frame_ok Zring a_rel /\
  NoDup [[0; 0]; [1; 0]]%nat /\ (forall c, In c [[0; 0]; [1; 0]]%nat <-> coords_ok ax2 c) /\
  total Zring ax2 [[0; 0]; [1; 0]]%nat (fun f => mvmul 2 (al_M a_rel) f 0%nat) F_ex = 341 /\
  fst (iter 1 (two_step ax2 vel2 (pull_local a_rel) (fun _ => 0) (fun _ => 0)) (F_ex, F_ex)) [1; 0]%nat [1; 1] 1%nat <> F_ex [1; 0]%nat [1; 1] 1%nat.
Proof.
  split; [apply fits_ex|]. split; [repeat constructor|]. split; [exact a_rel_frame_ok|].
  split; [repeat constructor; cbn; intuition discriminate|]. split; [|split; [vm_compute; reflexivity|vm_compute; discriminate]].
  intros c. split.
  - intros [<-|[<-|[]]]; repeat constructor.
  - intros H. inversion H as [|x1 c1 l1 t1 H1 H2]; subst. inversion H2 as [|x2 c2 l2 t2 H3 H4]; subst. inversion H4; subst.
    cbn in H1, H3. destruct c2 as [|c2]; [|lia]. destruct c1 as [|[|c1]]; [left; reflexivity|right; left; reflexivity|lia].
Qed.
Example C24_uniform_example : let f := fun k => nth k [-2; 3] 0 in
  let m := mvmul (al_n a_ex) (al_M a_ex) f in forall k, (k < al_n a_ex)%nat -> m k = al_eq a_ex m k.
Proof. intros f m [|[|k]] Hk; cbn in Hk; try lia; reflexivity. Qed.
Example C28_example :
  fst (iter 2 (two_step ax2 vel2 (transport_local a_ex) (fun _ => 0) (fun _ => 0)) (F_ex, F_ex)) [1; 0]%nat [1; 1] 1%nat
  = F_ex [0; 0]%nat [2; 3] 1%nat /\
  globc ax2 [1; 0]%nat [1; 1] = [3; 0] /\ globc ax2 [0; 0]%nat [2; 3] = [1; 2].
Proof. split; [|split; reflexivity]. vm_compute. reflexivity. Qed.
Example C29_example : map ax_n ax2 = map ax_n ax1 /\
  exists F1 : fields Zring, glued ax2 ax1 2 F_ex F1 /\ F1 [0; 0]%nat [4; 1] 0%nat <> F1 [0; 0]%nat [1; 1] 0%nat.
Proof.
  split; [reflexivity|].
  destruct (holds_ex Zring ax2 vel2 2 F_ex (proj1 fits_ex)) as [G HG].
  exists (fun c i => G (globc ax1 c i)). split.
  - intros c i c' i' k Hc Hi Hc' Hi' Hk E. rewrite <- E. apply HG; assumption.
  - assert (C : forall d, (d < 2)%nat -> coords_ok ax2 [d; 0%nat]).
    { intros [|[|d]] Hd; try lia; repeat constructor. }
    assert (I0 : inner ax2 [0; 0]%nat [1; 1]).
    { split; [reflexivity|]. intros [|[|d]] Hd; cbn in Hd; try lia; vm_compute; split; (discriminate || reflexivity). }
    assert (I1 : inner ax2 [1; 0]%nat [1; 1]).
    { split; [reflexivity|]. intros [|[|d]] Hd; cbn in Hd; try lia; vm_compute; split; (discriminate || reflexivity). }
    pose proof (HG [0; 0]%nat [1; 1] (C 0%nat ltac:(lia)) I0 0%nat ltac:(lia)) as E0.
    pose proof (HG [1; 0]%nat [1; 1] (C 1%nat ltac:(lia)) I1 0%nat ltac:(lia)) as E1.
    change (globc ax1 [0; 0]%nat [4; 1]) with (globc ax2 [1; 0]%nat [1; 1]).
    change (globc ax1 [0; 0]%nat [1; 1]) with (globc ax2 [0; 0]%nat [1; 1]).
    rewrite <- E0, <- E1. vm_compute. discriminate.
Qed.
Example C34_example :
  fst (iter 2 (one_step ax2 vel2 (pull_local a_ex)) (F_ex, ((fun _ _ _ => 0), (fun _ _ _ => 0)))) [1; 0]%nat [1; 1] 1%nat =
  fst (iter 2 (two_step ax2 vel2 (pull_local a_ex) (fun _ => 0) (fun _ => 0)) (F_ex, (fun _ _ _ => 5))) [1; 0]%nat [1; 1] 1%nat
  /\ fits ax2 vel2 (al_n a_ex) /\ algo_ok Zring a_ex.
Proof. split; [vm_compute; reflexivity|]. split; [apply fits_ex|apply algo_ok_ex]. Qed.
