(* C66: the symbols of the user have their values in the generated kernels. *)
From Coq Require Import String.
From Verif Require Import PyBase LinAlg AlgoModel AlgoProps BoundaryModel ArgsModel.
Open Scope string_scope.

Section Spec.
Variable K : ring.
(* What the user means: coordinates of the cell, conserved moments of the cell, arguments of the
   call, time, time step, extra parameters. *)
Definition meaning (cons : list string) (dim : nat) (x mom : nat -> K) (t dt : K) (extra kw : list (string * K)) (s : string) : option K :=
  match position s coord_names with
  | Some d => if (d <? dim)%nat then Some (x d) else None
  | None => match position s cons with
    | Some k => Some (mom k)
    | None => match lookup s kw with
      | Some v => Some v
      | None => if String.eqb s "t" then Some t else if String.eqb s "dt" then Some dt else lookup s extra
      end
    end
  end.
Fixpoint ueval (env : string -> option K) (e : uexp K) : option K := match e with
  | UNum _ c => Some c
  | USym _ s => env s
  | UUn _ o e => option_map o (ueval env e)
  | UBin _ o e1 e2 => match ueval env e1, ueval env e2 with Some x, Some y => Some (o x y) | _, _ => None end
  end.
Fixpoint usyms (e : uexp K) : list string := match e with
  | UNum _ _ => []
  | USym _ s => [s]
  | UUn _ _ e => usyms e
  | UBin _ _ e1 e2 => usyms e1 ++ usyms e2
  end.

Lemma position_none s l : position s l = None <-> ~ In s l.
Proof.
  induction l as [|x l IH]; cbn; [tauto|]. destruct (String.eqb_spec s x) as [->|N].
  - split; [discriminate|]. intros H. destruct H. now left.
  - assert (E : option_map S (position s l) = None <-> position s l = None) by (destruct (position s l); cbn; split; congruence).
    rewrite E, IH. split; [intros H [X|X]; [now destruct N|tauto]|tauto].
Qed.
Lemma position_some s l k : position s l = Some k -> nth_error l k = Some s.
Proof.
  revert k. induction l as [|x l IH]; intros k; cbn; [discriminate|]. destruct (String.eqb_spec s x) as [->|N].
  - intros H. injection H as <-. reflexivity.
  - destruct (position s l) as [j|]; cbn; [|discriminate]. intros H. injection H as <-. now apply IH.
Qed.
Lemma lookup_app {A} s (l l' : list (string * A)) : lookup s (l ++ l') = match lookup s l' with Some v => Some v | None => lookup s l end.
Proof.
  unfold lookup. rewrite rev_app_distr. generalize (rev l) (rev l'). clear. intros l l'. induction l' as [|p l' IH]; cbn; [reflexivity|].
  destruct (String.eqb (fst p) s); [reflexivity|exact IH].
Qed.

Variable isz : K -> bool.
Hypothesis Hisz : forall v, isz v = true <-> v = r0.
Variables (cons : list string) (dim : nat) (t dt : K) (extra kw : list (string * K)).
(* A symbol without trouble. *)
Definition plain (s : string) : Prop :=
  ~ In s coord_names /\ ~ In s local_names /\
  (In s cons \/ s = "t" \/ s = "dt" \/
   (~ In s (variables) /\ s <> "lambda" /\ s <> "lambda_" /\ (lookup s kw <> None \/ lookup s extra <> None)) \/
   (s = "lambda" /\ lookup "lambda" kw = None /\ lookup "lambda_" kw = None /\ exists v, lookup "lambda" extra = Some v /\ v <> r0)).
(* A coordinate of the space. *)
Definition coordinate (s : string) : Prop := exists d, position s coord_names = Some d /\ (d < dim)%nat /\ ~ In (nth d local_names "") cons.
Notation args := (all_args K isz false dim t dt extra kw).
Definition kernel_of (step : bool) (es : list (uexp K)) : routine K :=
  let cs := map (subst K cons) es in if step then step_routine K dim cs else whole_routine K cs.

Lemma coord_lt s d : position s coord_names = Some d -> (d < 3)%nat.
Proof. intros H. apply position_some in H. apply (nth_error_Some coord_names). congruence. Qed.
Lemma firstn_in (s : string) : In s (firstn dim local_names) -> In s local_names.
Proof. rewrite <- (firstn_skipn dim local_names) at 2. intros H. apply in_or_app. now left. Qed.
Lemma not_local step es s : ~ In s local_names -> is_local K (kernel_of step es) s = false.
Proof.
  intros H. unfold is_local. assert (P : position s (r_locals K (kernel_of step es)) = None); [|now rewrite P]. apply position_none.
  unfold kernel_of. destruct step; cbn; [|tauto]. intros C. apply H. now apply firstn_in.
Qed.
Lemma plain_arg s : plain s -> ~ In s cons -> exists v, args (printed s) = Some (VNum K v) /\ meaning cons dim (fun _ => r0) (fun _ => r0) t dt extra kw s = Some v.
Proof using Hisz.
  intros (H1 & H2 & H3) Hc. unfold meaning. rewrite (proj2 (position_none s coord_names) H1), (proj2 (position_none s cons) Hc). unfold all_args, get_args.
  destruct H3 as [H3|[-> |[-> |[(H3 & H4 & H5 & H6)|(-> & H4 & H5 & v & H6 & H7)]]]]; [tauto| | | |].
  - cbn [printed String.eqb Ascii.eqb Bool.eqb]. destruct (lookup "t" kw) as [v|]; [now exists v|]. exists t.
    assert (A : position "t" (assigned dim) = Some 12%nat) by (unfold assigned; destruct (1 <? dim)%nat, (2 <? dim)%nat; reflexivity). change (printed "t") with "t". rewrite A. split; reflexivity.
  - cbn [printed String.eqb Ascii.eqb Bool.eqb]. destruct (lookup "dt" kw) as [v|]; [now exists v|]. exists dt.
    assert (A : position "dt" (assigned dim) = Some 13%nat) by (unfold assigned; destruct (1 <? dim)%nat, (2 <? dim)%nat; reflexivity). change (printed "dt") with "dt". rewrite A. split; reflexivity.
  - assert (P : printed s = s) by (unfold printed; destruct (String.eqb_spec s "lambda"); [tauto|reflexivity]). rewrite P.
    destruct (lookup s kw) as [v|] eqn:E; [now exists v|]. rewrite (proj2 (position_none s variables) H3).
    assert (N1 : String.eqb s "t" = false) by (apply String.eqb_neq; intros ->; apply H3; cbn; tauto).
    assert (N2 : String.eqb s "dt" = false) by (apply String.eqb_neq; intros ->; apply H3; cbn; tauto). rewrite N1, N2.
    assert (L : lookup s (extra_dict K isz extra) = lookup s extra).
    { unfold extra_dict. destruct (lookup "lambda" extra) as [v|]; [|reflexivity]. destruct (isz v); [reflexivity|]. rewrite lookup_app. unfold lookup at 1. cbn [rev app find fst].
      destruct (String.eqb_spec "lambda_" s) as [E'|_]; [now destruct H5|reflexivity]. }
    rewrite L. destruct (lookup s extra) as [v|]; [now exists v|]. destruct H6; congruence.
  - change (printed "lambda") with "lambda_". rewrite H4, H5. exists v. change (position "lambda_" variables) with (@None nat).
    unfold extra_dict. rewrite H6. assert (Z : isz v = false) by (destruct (isz v) eqn:E; [apply Hisz in E; tauto|reflexivity]). rewrite Z, lookup_app. split; [reflexivity|]. reflexivity.
Qed.
Lemma sub_plain s : ~ In s coord_names -> subst K cons (USym K s) = sub_moment K cons s.
Proof. intros H. cbn. unfold sub_coord. now rewrite (proj2 (position_none s coord_names) H). Qed.
Lemma sub_coordinate s d : position s coord_names = Some d -> ~ In (nth d local_names "") cons -> subst K cons (USym K s) = CName K (nth d local_names "").
Proof. intros H H'. cbn. unfold sub_coord, sub_moment. now rewrite H, (proj2 (position_none _ cons) H'). Qed.
Lemma local_coord d : (d < dim)%nat -> (d < 3)%nat -> In (nth d local_names "") (firstn dim local_names).
Proof. clear Hisz. intros H H3. destruct d as [|[|[|d]]]; [| | |lia]; (destruct dim as [|[|[|k]]]; [lia| | |]); cbn; try tauto; lia. Qed.
Lemma coord_local step es s d : position s coord_names = Some d -> (d < dim)%nat -> is_local K (kernel_of step es) (nth d local_names "") = step.
Proof.
  intros H Hd. pose proof (coord_lt s d H) as H3. unfold is_local, kernel_of. destruct step; [|reflexivity]. cbn [step_routine r_locals].
  destruct (position (nth d local_names "") (firstn dim local_names)) eqn:E; [reflexivity|]. apply position_none in E. now destruct (E (local_coord d Hd H3)).
Qed.

(* The names of an expression whose symbols are plain or (in the step) coordinates are local or have a value. *)
Lemma names_ok step es e s : (forall u, In u (usyms e) -> plain u \/ (step = true /\ coordinate u)) -> In s (names K (subst K cons e)) ->
  is_local K (kernel_of step es) s = true \/ args (printed s) <> None.
Proof using Hisz.
  induction e as [c|u|o e IH|o e1 IH1 e2 IH2]; intros H Hs.
  - destruct Hs.
  - destruct (H u (or_introl eq_refl)) as [P|[-> (d & C1 & C2 & C3)]].
    + pose proof P as (P1 & P2 & _). rewrite (sub_plain u P1) in Hs. unfold sub_moment in Hs. destruct (position u cons) eqn:E; [destruct Hs|].
      destruct Hs as [<-|[]]. right. apply position_none in E. destruct (plain_arg u P E) as (v & -> & _). discriminate.
    + rewrite (sub_coordinate u d C1 C3) in Hs. destruct Hs as [<-|[]]. left. now apply (coord_local true es u).
  - now apply IH.
  - cbn in Hs. apply in_app_or in Hs. destruct Hs as [Hs|Hs]; [apply IH1|apply IH2]; try assumption; intros u Hu; apply H; cbn; apply in_or_app; tauto.
Qed.
Lemma kernel_call step es : (forall e u, In e es -> In u (usyms e) -> plain u \/ (step = true /\ coordinate u)) -> call_ok K (kernel_of step es) args = true.
Proof using Hisz.
  intros H. unfold call_ok. apply forallb_forall. intros s Hs. unfold arguments in Hs. apply in_map_iff in Hs as (u & <- & Hu). apply filter_In in Hu as [Hu Hl].
  apply in_flat_map in Hu as (c & Hc & Hu). assert (Hc' : In c (map (subst K cons) es)) by (unfold kernel_of in Hc; destruct step; exact Hc).
  apply in_map_iff in Hc' as (e & <- & He). destruct (names_ok step es e u (fun x Hx => H e x He Hx) Hu) as [X|X].
  - rewrite X in Hl. discriminate.
  - destruct (args (printed u)); [reflexivity|tauto].
Qed.
Lemma value_ok be step es undef mom (x : nat -> K) e : (forall u, In u (usyms e) -> plain u \/ (be = Cython /\ step = true /\ coordinate u /\ forall d, x d = undef (nth d local_names ""))) ->
  exists v, value K be (kernel_of step es) args undef mom (subst K cons e) = Some v /\ ueval (meaning cons dim x mom t dt extra kw) e = Some v.
Proof using Hisz.
  induction e as [c|u|o e IH|o e1 IH1 e2 IH2]; intros H.
  - now exists c.
  - destruct (H u (or_introl eq_refl)) as [P|(-> & -> & (d & C1 & C2 & C3) & Hx)].
    + pose proof P as (P1 & P2 & _). rewrite (sub_plain u P1). unfold sub_moment. cbn [ueval]. destruct (position u cons) as [k|] eqn:E.
      * exists (mom k). split; [reflexivity|]. unfold meaning. now rewrite (proj2 (position_none u coord_names) P1), E.
      * pose proof (proj1 (position_none _ _) E) as N. destruct (plain_arg u P N) as (v & A & M). exists v. cbn [value]. rewrite (not_local step es u P2), A. split; [reflexivity|].
        rewrite <- M. unfold meaning. now rewrite (proj2 (position_none u coord_names) P1), E.
    + exists (x d). rewrite (sub_coordinate u d C1 C3). cbn [value ueval]. rewrite (coord_local true es u d C1 C2), Hx. split; [reflexivity|].
      unfold meaning. rewrite C1. destruct (Nat.ltb_spec d dim); [now rewrite Hx|lia].
  - destruct (IH H) as (v & A & B). exists (o v). cbn [subst value ueval]. now rewrite A, B.
  - destruct IH1 as (v1 & A1 & B1); [intros u Hu; apply H; cbn; apply in_or_app; tauto|]. destruct IH2 as (v2 & A2 & B2); [intros u Hu; apply H; cbn; apply in_or_app; tauto|].
    exists (o v1 v2). cbn [subst value ueval]. now rewrite A1, A2, B1, B2.
Qed.
Lemma run_ok be step es undef mom x : (forall e u, In e es -> In u (usyms e) -> plain u \/ (be = Cython /\ step = true /\ coordinate u /\ forall d, x d = undef (nth d local_names ""))) ->
  exists vs, run_routine K be (kernel_of step es) args undef mom = Some vs /\ Forall2 (fun e v => ueval (meaning cons dim x mom t dt extra kw) e = Some v) es vs.
Proof using Hisz.
  intros H. unfold run_routine. rewrite (kernel_call step es) by (intros e u He Hu; destruct (H e u He Hu) as [P|(_ & A & B & _)]; auto).
  assert (R : r_exps K (kernel_of step es) = map (subst K cons) es) by (unfold kernel_of; destruct step; reflexivity). rewrite R.
  assert (G : forall l, (forall e, In e l -> In e es) -> exists vs, fold_right (fun e acc => match value K be (kernel_of step es) args undef mom e, acc with Some x, Some l => Some (x :: l) | _, _ => None end)
    (Some []) (map (subst K cons) l) = Some vs /\ Forall2 (fun e v => ueval (meaning cons dim x mom t dt extra kw) e = Some v) l vs).
  { induction l as [|e l IH]; intros Hl; [exists []; split; [reflexivity|constructor]|]. destruct IH as (vs & A & B); [intros e' He'; apply Hl; now right|].
    destruct (value_ok be step es undef mom x e) as (v & C & D); [intros u Hu; apply (H e u); [apply Hl; now left|exact Hu]|].
    exists (v :: vs). cbn [map fold_right]. rewrite A, C. split; [reflexivity|now constructor]. }
  now apply G.
Qed.
(* Conserved moments, time, time step, extra parameters: every kernel of both back ends computes
   with the values which the user means. *)
Theorem C66_values be step es undef mom x : (forall e u, In e es -> In u (usyms e) -> plain u) ->
  exists vs, run_routine K be (kernel_of step es) args undef mom = Some vs /\ Forall2 (fun e v => ueval (meaning cons dim x mom t dt extra kw) e = Some v) es vs.
Proof using Hisz. intros H. apply run_ok. intros e u He Hu. left. now apply (H e). Qed.
(* Coordinates: the step of Cython computes with what is in memory in their place ... *)
Lemma memory_ok es undef mom : (forall e u, In e es -> In u (usyms e) -> plain u \/ coordinate u) ->
  exists vs, run_routine K Cython (kernel_of true es) args undef mom = Some vs /\
  Forall2 (fun e v => ueval (meaning cons dim (fun d => undef (nth d local_names "")) mom t dt extra kw) e = Some v) es vs.
Proof using Hisz. intros H. apply run_ok. intros e u He Hu. destruct (H e u He Hu); auto. Qed.
Theorem C66_cython_memory es undef mom : (forall e u, In e es -> In u (usyms e) -> plain u \/ coordinate u) ->
  exists vs, run_routine K Cython (kernel_of true es) args undef mom = Some vs /\
  Forall2 (fun e v => ueval (meaning cons dim (fun d => undef (nth d ["xx"; "yy"; "zz"] "")) mom t dt extra kw) e = Some v) es vs.
Proof using Hisz. exact (memory_ok es undef mom). Qed.
(* ... the step of NumPy and the other kernels of both fail. *)
Lemma value_none be step es undef mom s d e : position s coord_names = Some d -> (d < dim)%nat -> ~ In (nth d local_names "") cons -> In s (usyms e) ->
  (be = Numpy /\ step = true) \/ (step = false /\ args (nth d local_names "") = None) ->
  value K be (kernel_of step es) args undef mom (subst K cons e) = None.
Proof.
  intros H Hd Hc He Hb. induction e as [c|u|o e IH|o e1 IH1 e2 IH2]; cbn in He.
  - destruct He.
  - destruct He as [->|[]]. rewrite (sub_coordinate s d H Hc). cbn [value]. rewrite (coord_local step es s d H Hd).
    assert (P : printed (nth d local_names "") = nth d local_names "") by (pose proof (coord_lt s d H) as H3; destruct d as [|[|[|d]]]; [reflexivity|reflexivity|reflexivity|exfalso; clear - H3; lia]).
    rewrite P. destruct Hb as [[-> ->]|[-> ->]]; reflexivity.
  - cbn [subst value]. now rewrite (IH He).
  - cbn [subst value]. apply in_app_or in He. destruct He as [He|He]; [now rewrite (IH1 He)|rewrite (IH2 He)]. destruct (value _ _ _ _ _ _ _); reflexivity.
Qed.
Lemma coordinates_fail be step es undef mom e s d : In e es -> In s (usyms e) -> position s coord_names = Some d -> (d < dim)%nat -> ~ In (nth d local_names "") cons ->
  (be = Numpy /\ step = true) \/ (step = false /\ lookup (nth d local_names "") kw = None /\ lookup (nth d local_names "") extra = None) ->
  run_routine K be (kernel_of step es) args undef mom = None.
Proof using.
  intros He Hs H Hd Hc Hb. unfold run_routine. destruct (call_ok _ _ _); [|reflexivity].
  assert (Hb' : (be = Numpy /\ step = true) \/ (step = false /\ args (nth d local_names "") = None)).
  { destruct Hb as [Hb|(-> & B1 & B2)]; [now left|]. right. split; [reflexivity|]. unfold all_args. rewrite B1. unfold get_args.
    pose proof (coord_lt s d H) as H3. assert (V : position (nth d local_names "") variables = None) by (destruct d as [|[|[|d]]]; [reflexivity|reflexivity|reflexivity|exfalso; clear - H3; lia]). rewrite V.
    unfold extra_dict. destruct (lookup "lambda" extra) as [v|]; [|now rewrite B2]. destruct (isz v); [now rewrite B2|]. rewrite lookup_app, B2.
    destruct d as [|[|[|d]]]; [reflexivity|reflexivity|reflexivity|exfalso; clear - H3; lia]. }
  assert (R : r_exps K (kernel_of step es) = map (subst K cons) es) by (unfold kernel_of; destruct step; reflexivity). rewrite R.
  clear Hb. assert (G : forall l, In e l -> fold_right (fun e acc => match value K be (kernel_of step es) args undef mom e, acc with Some x, Some l => Some (x :: l) | _, _ => None end)
    (Some []) (map (subst K cons) l) = None).
  { induction l as [|e' l IH]; intros Hl; [destruct Hl|]. cbn [map fold_right]. destruct Hl as [->|Hl].
    - now rewrite (value_none be step es undef mom s d e H Hd Hc Hs Hb').
    - rewrite (IH Hl). destruct (value _ _ _ _ _ _ _); reflexivity. }
  now apply G.
Qed.
Theorem C66_coordinates_fail be step es undef mom e s d : In e es -> In s (usyms e) -> nth_error ["X"; "Y"; "Z"] d = Some s -> (d < dim)%nat -> ~ In (nth d ["xx"; "yy"; "zz"] "") cons ->
  (be = Numpy /\ step = true) \/ (step = false /\ lookup (nth d ["xx"; "yy"; "zz"] "") kw = None /\ lookup (nth d ["xx"; "yy"; "zz"] "") extra = None) ->
  run_routine K be (kernel_of step es) args undef mom = None.
Proof using.
  intros He Hs H Hd. assert (P : position s coord_names = Some d) by (destruct d as [|[|[|d]]]; cbn in H; try (injection H as <-; reflexivity); destruct d; discriminate).
  exact (coordinates_fail be step es undef mom e s d He Hs P Hd).
Qed.
(* A name of a variable of _get_args: the extra parameter is not read. *)
Theorem C66_reserved s fresh extra' : In s variables -> all_args K isz fresh dim t dt extra kw s = all_args K isz fresh dim t dt extra' kw s.
Proof using.
  intros H. unfold all_args. destruct (lookup s kw); [reflexivity|]. unfold get_args. destruct (position s variables) eqn:E; [reflexivity|]. apply position_none in E. destruct (E H).
Qed.
End Spec.
Print Assumptions C66_values.
Print Assumptions C66_cython_memory.
Print Assumptions C66_coordinates_fail.
Print Assumptions C66_reserved.

(* ------------------------------------------------------------------ refutations, examples *)
Notation UE := (uexp Zring).
Definition zisz (v : Zring) : bool := Z.eqb v 0.
Lemma zisz_ok : forall v : Zring, zisz v = true <-> v = r0.
Proof. intros v. apply Z.eqb_eq. Qed.
Definition usub : UE -> UE -> UE := UBin Zring (fun x y : Z => (x - y)%Z).
Definition umul : UE -> UE -> UE := UBin Zring (fun x y : Z => (x * y)%Z).
Definition uadd : UE -> UE -> UE := UBin Zring (fun x y : Z => (x + y)%Z).
Notation sy := (USym Zring).
(* the source -Abs(X - t)**2*u of notebooks/08_advection_reaction.ipynb, with euler (ode.py) for dt = 2 h *)
Definition notebook : UE := uadd (sy "u") (umul (sy "h") (umul (UUn Zring Z.opp (umul (usub (sy "X") (sy "t")) (usub (sy "X") (sy "t")))) (sy "u"))).
Definition runz be step es (undef : string -> Z) (u t : Z) extra :=
  run_routine Zring be (kernel_of Zring ["u"] 1 step es) (all_args Zring zisz false 1 t 2%Z extra []) undef (fun _ => u).
Lemma notebook_value (a : Z) : (5 + 1 * (- ((a - 3) * (a - 3)) * 5) = 5 - (a - 3) * (a - 3) * 5)%Z.
Proof. ring. Qed.
(* The coordinates of the cell are not used: two contents of the memory give two results, NumPy
   fails; in an equilibrium the initialization already fails. *)
Theorem C66_coordinates_refuted : exists e : UE,
  (forall x, ueval Zring (meaning Zring ["u"] 1 x (fun _ => 5%Z) 3%Z 2%Z [("h", 1%Z)] []) e = Some (5 - (x 0%nat - 3) * (x 0%nat - 3) * 5)%Z) /\
  runz Cython true [e] (fun _ => 3%Z) 5 3 [("h", 1%Z)] = Some [5%Z] /\ runz Cython true [e] (fun _ => 7%Z) 5 3 [("h", 1%Z)] = Some [(-75)%Z] /\
  (forall undef, runz Numpy true [e] undef 5 3 [("h", 1%Z)] = None) /\ forall be undef, runz be false [e] undef 5 3 [("h", 1%Z)] = None.
Proof.
  exists notebook. split; [intros x; exact (f_equal Some (notebook_value (x 0%nat)))|]. split; [reflexivity|]. split; [reflexivity|]. split; [reflexivity|]. intros [|] undef; reflexivity.
Qed.
Print Assumptions C66_coordinates_refuted.
(* From Python 3.13 on no extra parameter reaches a kernel. *)
Theorem C66_extra_refuted : forall be step s (v : Z), In s ["a"; "h"; "lambda"] ->
  run_routine Zring be (kernel_of Zring ["u"] 1 step [sy s]) (all_args Zring zisz true 1 0%Z 2%Z [(s, v)] []) (fun _ => 0%Z) (fun _ => 0%Z) = None /\
  (v <> 0%Z -> run_routine Zring be (kernel_of Zring ["u"] 1 step [sy s]) (all_args Zring zisz false 1 0%Z 2%Z [(s, v)] []) (fun _ => 0%Z) (fun _ => 0%Z) = Some [v]).
Proof.
  intros be step s v [<-|[<-|[<-|[]]]]; (split; [destruct step, be; reflexivity|]); intros N; apply Z.eqb_neq in N;
    destruct step, be; cbn; unfold run_routine, call_ok; cbn; unfold all_args, get_args, extra_dict, zisz; cbn; try rewrite N; reflexivity.
Qed.
Print Assumptions C66_extra_refuted.
(* the value zero of an extra parameter "lambda" is lost *)
Theorem C66_lambda_refuted : exists e : UE, ueval Zring (meaning Zring ["u"] 1 (fun _ => 0%Z) (fun _ => 0%Z) 0%Z 2%Z [("lambda", 0%Z)] []) e = Some 0%Z /\
  forall be step undef u, runz be step [e] undef u 0 [("lambda", 0%Z)] = None.
Proof. exists (sy "lambda"). split; [reflexivity|]. intros [|] [|] undef u; reflexivity. Qed.
Print Assumptions C66_lambda_refuted.
(* the third axis has the coordinates of the second one *)
Theorem C66_third_axis_refuted : get_args Zring zisz false 3 0%Z 2%Z [] "Z" = Some (VCoords Zring 1).
Proof. reflexivity. Qed.
Print Assumptions C66_third_axis_refuted.
Example C66_example : let e := uadd (sy "u") (umul (sy "a") (sy "t")) in
  (forall s, In s (usyms Zring e) -> plain Zring ["u"] [("a", 4%Z); ("dim", 9%Z)] [] s) /\ runz Numpy false [e] (fun _ => 0%Z) 5 3 [("a", 4%Z); ("dim", 9%Z)] = Some [17%Z] /\
  all_args Zring zisz false 1 0%Z 2%Z [("a", 4%Z); ("dim", 9%Z)] [] "dim" = Some (VObj Zring).
Proof.
  cbv zeta. split; [|split; reflexivity]. intros s [<-|[<-|[<-|[]]]]; (split; [cbn; intuition discriminate|split; [cbn; intuition discriminate|]]).
  - left. now left.
  - right. right. right. left. split; [cbn; intuition discriminate|]. repeat (split; [discriminate|]). right. discriminate.
  - right. now left.
Qed.
