(* Property C44, second part: the eigenvalues.  The roots of the polynomial computed by
   algo_cohn_schur are the growth factors of the plane waves of the linearised scheme. *)
From Verif Require Import PyBase VelocityModel GridModel StorageModel ExchangeProofs LinAlg AlgoModel AlgoProofs RelVelProofs KernelProofs GlobalModel GlobalProofs TorusProofs GlobalProps StabilitySchemeModel StabilitySchemeProofs StabilityWaveProofs StabilitySchemeProps.
From mathcomp Require Import all_ssreflect all_algebra.
From Verif Require Import StabilityModel StabilityProofs StabilityStepProofs StabilityListProofs StabilityProps StabilityMatrixProofs.
Set Implicit Arguments.
Unset Strict Implicit.
Unset Printing Implicit Defensive.
Import Order.TTheory GRing.Theory Num.Theory.
Local Open Scope ring_scope.

Definition Cring (C : comRingType) : LinAlg.ring :=
  LinAlg.mkRing (C : Type) 0 1 (fun x y => x + y) (fun x y => x * y) (fun a b => a - b) (fun x => - x) (@R_th C).

Section Bridge.
Variable C : numClosedFieldType.
Notation K := (Cring C).

Definition to_mx n (A : LinAlg.mat K) : 'M[C]_n := \matrix_(i, j) (A i j : C).
Definition to_cv n (f : LinAlg.vec K) : 'cV[C]_n := \col_i (f i : C).
Lemma sumE n (g : nat -> K) : LinAlg.sum n g = \sum_(i < n) (g i : C).
Proof. elim: n => [|n IH]; first by rewrite big_ord0. by rewrite (LinAlg.sum_S K) IH big_ord_recr. Qed.
Lemma mvmulE n A f : to_cv n (LinAlg.mvmul n A f) = to_mx n A *m to_cv n f.
Proof. by apply/matrixP=> i j; rewrite !mxE /LinAlg.mvmul sumE; apply: eq_bigr => k _; rewrite !mxE. Qed.
Lemma ampE n e R : to_mx n (amplification e R) = set_matrix (fun j : 'I_n => e j : C) (to_mx n R).
Proof. by apply/matrixP=> i j; rewrite !mxE. Qed.

Lemma char_poly_tr n (A : 'M[C]_n) : char_poly A^T = char_poly A.
Proof.
by rewrite /char_poly -det_tr; congr (\det _); apply/matrixP=> i j; rewrite !mxE eq_sym.
Qed.
Lemma eigen n (A : LinAlg.mat K) (l : C) : root (char_poly (to_mx n A)) l <->
  exists f : LinAlg.vec K, (exists k, (k < n)%coq_nat /\ f k <> 0) /\
    forall k, (k < n)%coq_nat -> LinAlg.mvmul n A f k = l * (f k : C).
Proof.
rewrite -char_poly_tr -eigenvalue_root_char; split.
- case/eigenvalueP=> v vA v0; set f := (fun k => if insub k is Some i then v 0 i else 0) : LinAlg.vec K.
  have fE (i : 'I_n) : f i = v 0 i by rewrite /f valK.
  have cvE : to_cv n f = v^T by apply/matrixP=> i j; rewrite !mxE fE (ord1 j).
  exists f; split.
    have /existsP[k vk] : [exists k, v 0 k != 0].
      apply: contraR v0; rewrite negb_exists => /forallP H; apply/eqP/rowP=> k; rewrite mxE; exact/eqP/negbNE/(H k).
    exists k; split; [exact/ssrnat.ltP|rewrite fE; exact/eqP].
  move=> k /ssrnat.ltP kn; have := congr1 (fun w : 'rV_n => w 0 (Ordinal kn)) vA.
  have -> : v *m (to_mx n A)^T = (to_cv n (LinAlg.mvmul n A f))^T by rewrite mvmulE cvE trmx_mul trmxK.
  by rewrite !mxE => ->; rewrite -fE.
- case=> f [[k [/ssrnat.ltP kn fk]] H]; apply/eigenvalueP; exists (to_cv n f)^T; last first.
    apply/eqP=> /matrixP /(_ 0 (Ordinal kn)); rewrite !mxE; exact: fk.
  rewrite -trmx_mul -mvmulE; apply/matrixP=> i j; rewrite !mxE; apply: H; exact/ssrnat.ltP.
Qed.
End Bridge.

Section Modes.
Variable C : numClosedFieldType.
Notation K := (Cring C).
Notation D := (dual (Cring C)).

(* The initial fields (storage of the Cython or of the NumPy version) hold f0 + eps exp(i xi . x) fh. *)
Definition starts (a : algo D) axes (ws : list (K * K)) (f0 fh : LinAlg.vec K) (F : fields D) : Prop :=
  forall c i k, coords_ok axes c -> inner axes c i -> (k < al_n a)%coq_nat ->
    F c i k = (f0 k, (wave K ws (globc axes c i) : C) * (fh k : C)) :> D.
(* A mode: the wave is multiplied by l at each time step, with both versions. *)
Definition mode (a : algo D) axes vel (ws : list (K * K)) (f0 fh : LinAlg.vec K) (l : C) : Prop :=
  (exists k, (k < al_n a)%coq_nat /\ fh k <> 0) /\
  forall m0 u0 st1 st2, starts a axes ws f0 fh (fst st1) -> starts a axes ws f0 fh (fst st2) ->
  forall t c i k, coords_ok axes c -> inner axes c i -> (k < al_n a)%coq_nat ->
    let w : D := (f0 k, l ^+ t * ((wave K ws (globc axes c i) : C) * (fh k : C))) in
    fst (GlobalModel.iter t (two_step axes vel (pull_local a) m0 u0) st1) c i k = w /\
    fst (GlobalModel.iter t (one_step axes vel (pull_local a)) st2) c i k = w.

Lemma eigen_iter n (A : LinAlg.mat K) (l : C) (f : LinAlg.vec K) :
  (forall k, (k < n)%coq_nat -> LinAlg.mvmul n A f k = l * (f k : C)) ->
  forall t k, (k < n)%coq_nat -> GlobalModel.iter t (LinAlg.mvmul n A) f k = l ^+ t * (f k : C) :> C.
Proof.
move=> H; elim=> [|t IH] k kn; first by rewrite /= expr0 mul1r.
rewrite [GlobalModel.iter _ _ _]/= (@mvmul_ext K n A _ (fun j => l ^+ t * (f j : C)) IH).
by rewrite (mvmul_scale K n A) H //= mulrCA exprS mulrA.
Qed.
Lemma wave_unit axes (ws : list (K * K)) g : wave_ok K axes ws -> exists h : C, h * (wave K ws g : C) = 1.
Proof.
move=> H; elim: H g => [|x [w wi] ax ws' [/= H1 H2] _ IH] [|z g]; try by exists 1; rewrite /= mul1r.
have [h E] := IH g; exists ((zpow K w wi (- z) : C) * h) => /=.
rewrite mulrACA E mulr1; have := zpow_add K w wi (- z) z H1.
by rewrite Z.add_opp_diag_l /= => <-.
Qed.

(* the matrix G of the code for the wave ws: set_matrix with exp(- i xi . v_j) *)
Definition code_matrix (a : algo D) (vel : nat -> list Z) M invM s J (ws : list (K * K)) : 'M[C]_(al_n a) :=
  set_matrix (fun j : 'I_(al_n a) => wave K ws (List.map Z.opp (vel j)) : C)
    (to_mx (al_n a) (relax_mat_f (al_n a) M invM (relax_mat (al_n a) (al_nc a) s J None))).

Theorem C44_spectrum (a : algo D) axes vel M invM s J ws f0 :
  fits axes vel (al_n a) -> List.Forall (fun x => Z.lt 0 (ax_n x)) axes -> wave_ok K axes ws ->
  al_relvel a = None -> al_source a = nil -> eq_ok D a -> rel_ok D a -> linearised K a M invM s J f0 ->
  (0 < al_n a)%N -> forall l : C,
  root (Poly (charpoly (code_matrix a vel M invM s J ws))) l <-> exists fh, mode a axes vel ws f0 fh l.
Proof.
move=> Hf Hp Hw HR HS He Hr HL n0 l.
have -> : Poly (charpoly (code_matrix a vel M invM s J ws)) = char_poly (code_matrix a vel M invM s J ws).
  by apply/val_inj; rewrite /= charpoly_spec // polyseqK.
rewrite /code_matrix -(ampE (al_n a) (fun j => wave K ws (List.map Z.opp (vel j)))); set A := amplification _ _; have E0 := eigen (al_n a) A l; apply: (iff_trans E0).
have run := @C44_run K a axes vel M invM s J ws f0 _ _ _ _ _ Hf Hp Hw HR HS He Hr HL.
split.
- case=> fh [nz H]; exists fh; split=> // m0 u0 st1 st2 S1 S2 t c i k Hc Hi Hk w.
  have := run fh m0 u0 st1 st2 (fun c i k hc hi hk => conj (S1 c i k hc hi hk) (S2 c i k hc hi hk)) t c i k Hc Hi Hk.
  rewrite -/A /= (eigen_iter H t Hk) /w mulrCA; exact.
- case=> fh [nz H]; exists fh; split=> // k Hk.
  set F : fields D := fun c i k => (f0 k, (wave K ws (globc axes c i) : C) * (fh k : C)).
  have S : starts a axes ws f0 fh F by [].
  have [Hd [Hok Hv]] := Hf.
  have [c [i [Hc [Hi _]]]] : exists c i, coords_ok axes c /\ inner axes c i /\ globc axes c i = List.map (fun _ => Z0) axes.
    apply: (gcell_globc axes 0%N Hd Hok); split; first by rewrite List.map_length.
    move=> d dd; have -> : List.nth d (List.map (fun=> Z0) axes) Z0 = Z0.
      by elim: (axes) d {dd} => [|x l' IH] [|d] //=.
    by have := proj1 (List.Forall_forall _ _) Hp _ (List.nth_In axes dax dd); split.
  have E := run fh (fun=> 0) (fun=> 0) (F, F) (F, (F, F)) (fun _ _ _ _ _ _ => conj (erefl _) (erefl _)) 1%N c i k Hc Hi Hk.
  have [E1 _] := H (fun=> 0) (fun=> 0) (F, F) (F, (F, F)) S S 1%N c i k Hc Hi Hk.
  move: E; rewrite E1 => -[/(congr1 snd) /= E _].
  have [h hw] := wave_unit (globc axes c i) Hw; move: (congr1 (fun x : C => h * x) E).
  by rewrite expr1 (mulrCA h l) !(mulrA h) hw !mul1r => ->.
Qed.

Lemma last_char n (G : 'M[C]_n) : last 0 (char_poly G) != 0.
Proof. by rewrite -nth_last -lead_coefE (monicP (char_poly_monic _)) oner_eq0. Qed.
Lemma min_pos (x y : C) : 0 < x -> 0 < y -> exists2 z, 0 < z & z <= x /\ z <= y.
Proof.
move=> x0 y0; case: (real_leP (gtr0_real x0) (gtr0_real y0)) => h; [exists x|exists y] => //; split=> //; exact: ltW.
Qed.

(* The answer "out" is right for every tolerance: some wave is amplified. *)
Theorem C44_out (a : algo D) axes vel M invM s J wvs f0 (tpv : C) :
  fits axes vel (al_n a) -> List.Forall (fun x => Z.lt 0 (ax_n x)) axes -> (forall ws, List.In ws wvs -> wave_ok K axes ws) ->
  al_relvel a = None -> al_source a = nil -> eq_ok D a -> rel_ok D a -> linearised K a M invM s J f0 ->
  (0 < al_n a)%N -> 0 < tpv ->
  is_stable_l2 [seq algo_cohn_schur tpv (code_matrix a vel M invM s J ws) | ws <- wvs] = 2%N ->
  exists ws, List.In ws wvs /\ exists l fh, 1 < `|l| /\ mode a axes vel ws f0 fh l.
Proof.
move=> Hf Hp Hw HR HS He Hr HL n0 t0; rewrite /is_stable_l2.
have -> : forall x : bool, (if ~~ x then 2%N else if all (fun t => t.1) [seq algo_cohn_schur tpv (code_matrix a vel M invM s J ws) | ws <- wvs] then 0%N else 1%N) = 2%N <-> ~~ x by case=> //=; case: ifP.
rewrite -has_predC has_map => H.
have [ws [iw /negbTE F]] : exists ws, List.In ws wvs /\ ~~ is_vN tpv (charpoly (code_matrix a vel M invM s J ws)).
  elim: (wvs) H => [|ws l IH] //= /orP[H|/IH [w' [h1 h2]]]; [exists ws; split=> //; by left|exists w'; split=> //; by right].
exists ws; split=> //; have := F; have cE := charpoly_spec (code_matrix a vel M invM s J ws) n0; rewrite cE => {F} F.
case: (C43_vN_reject t0 _ _ F); first by rewrite size_char_poly ltnS.
  exact: last_char.
move=> l rl l1; exists l; have [] := C44_spectrum Hf Hp (Hw ws iw) HR HS He Hr HL n0 l; rewrite cE => /(_ rl) [fh m] _.
by exists fh.
Qed.
(* With a small enough tolerance (it depends on the scheme and on the waves) the other answers
   are right too. *)
Theorem C44_verdict (a : algo D) axes vel M invM s J wvs f0 :
  fits axes vel (al_n a) -> List.Forall (fun x => Z.lt 0 (ax_n x)) axes -> (forall ws, List.In ws wvs -> wave_ok K axes ws) ->
  al_relvel a = None -> al_source a = nil -> eq_ok D a -> rel_ok D a -> linearised K a M invM s J f0 ->
  (0 < al_n a)%N -> exists2 t0 : C, 0 < t0 & forall t, 0 < t -> t < t0 ->
  (is_stable_l2 [seq algo_cohn_schur t (code_matrix a vel M invM s J ws) | ws <- wvs] = 2%N <->
   exists ws, List.In ws wvs /\ exists l fh, 1 < `|l| /\ mode a axes vel ws f0 fh l).
Proof.
move=> Hf Hp Hw HR HS He Hr HL n0.
have [t0 t00 H] : exists2 t0 : C, 0 < t0 & forall t, 0 < t -> t < t0 -> forall ws, List.In ws wvs ->
    is_vN t (charpoly (code_matrix a vel M invM s J ws)) -> forall l, root (char_poly (code_matrix a vel M invM s J ws)) l -> `|l| <= 1.
  elim: (wvs) => [|ws l [t0 t00 IH]]; first by exists 1; rewrite ?ltr01.
  have cE := charpoly_spec (code_matrix a vel M invM s J ws) n0.
  have sz : (2 <= size (char_poly (code_matrix a vel M invM s J ws)))%N by rewrite size_char_poly ltnS.
  have [t1 t10 H1] := C43_vN_exact sz (last_char _); have [t2 t20 [l0 l1]] := min_pos t00 t10.
  exists t2 => // t tp tt ws' [<-|iw] V z rz.
    have [/(_ _) P _] := H1 t tp (lt_le_trans tt l1); rewrite -cE in P; apply: (P V); by rewrite cE polyseqK.
  exact: (IH t tp (lt_le_trans tt l0) ws' iw V).
exists t0 => // t tp tt; split; first exact: C44_out.
case=> ws [iw [l [fh [l1 m]]]]; rewrite /is_stable_l2 ifT // -has_predC has_map.
suff F : ~~ is_vN t (charpoly (code_matrix a vel M invM s J ws)).
  by elim: (wvs) iw => [|w' r IH] //= [->|/IH ->]; rewrite ?F ?orbT.
apply/negP=> V; have := H t tp tt ws iw V l; rewrite (lt_geF l1); suff -> : root (char_poly (code_matrix a vel M invM s J ws)) l by move/(_ isT).
have [_] := C44_spectrum Hf Hp (Hw ws iw) HR HS He Hr HL n0 l; rewrite charpoly_spec // polyseqK; apply; by exists fh.
Qed.
End Modes.
Print Assumptions C44_spectrum. Print Assumptions C44_out. Print Assumptions C44_verdict.

(* the scheme of StabilitySchemeProps.v: velocities 0 and 1, equilibrium rho^2 around rho = 1 *)
Example C44_spectrum_example (C : numClosedFieldType) (s l : C) :
  let ws := [:: ((-1 : C), (-1 : C))] in
  root (Poly (charpoly (code_matrix (b_algo (Cring C) s) b_vel (b_M (Cring C)) (b_invM (Cring C)) (b_s (Cring C) s) (b_J (Cring C)) ws))) l <->
  exists fh, mode (b_algo (Cring C) s) b_axes b_vel ws (b_f0 (Cring C)) fh l.
Proof.
have [f p] := b_fits; have [e r] := b_eq_ok (Cring C) s.
exact: (@C44_spectrum C (b_algo (Cring C) s) _ _ _ _ _ _ _ _ f p (b_wave (Cring C)) erefl erefl e r (b_linearised (Cring C) s) isT l).
Qed.
