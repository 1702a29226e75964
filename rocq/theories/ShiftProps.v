(* C101: ducts with walls and obstacles, data moved along the periodic sides. *)
From Coq Require Import QArith Lqa.
From Verif Require Import PyBase VelocityModel VelocityProofs Velocity3Proofs StencilModel StencilProofs GridModel GridProofs StorageModel
  ExchangeProofs StorageProps LinAlg AlgoModel AlgoProofs RelVelProofs KernelProofs GlobalModel GlobalProofs TorusProofs AlgoProps GlobalProps
  GenModel GenProofs GenProps StepGenModel StepGenProofs StepGenProps SchemeModel SchemeProofs SchemeProps BuildModel BuildProofs BuildProps BuildFrame
  DomainModel DomainProofs DomainProps BoundaryModel BoundaryProofs BoundaryProps BoundaryUpdProps VesselProofs VesselProps ChannelProps
  ParallelModel ParallelProofs ObstacleProofs ParallelProps ObstacleProps ParallelMassProps WholeModel WholeProps InitGenModel InitGenProps DuctProps FlowProofs FlowProps.
Require Import Lia.
Open Scope Z_scope.

Section Shift.
Variables (dimz : Z) (schemes : list (list Z)) (st : stencil) (r : list Z) (g : grid) (es : list DomainModel.elem) (labs : list Z) (conds : Z -> list (nat * method)).
Variables (Dm : dom) (ms : list (method * list blink)).
Hypothesis E : serial dimz schemes st r g es labs conds Dm ms.
Hypothesis C : duct dimz schemes st r g es Dm conds (labels_of g labs) ms.
Variables (K : ring) (qk : Q -> K).
Variable inv : nat -> mat K -> option (mat K).
Variable simp : term K -> term K.
Variables (dm : nat) (hdt : K) (ds : list (sdict K)) (a : salgo K).
Hypothesis HI : inv_spec K inv.
Hypothesis HSi : simp_spec K simp.
Hypothesis D : dict_ok K simp ds.
Hypothesis O : ordered K simp ds.
Hypothesis EB : build K inv simp None dm hdt ds = Some a.
Hypothesis HPl : forall d t, In d ds -> In t (sd_P K d) -> below K dm t.
Hypothesis Hsz : map (nv K) ds = map (@length Z) schemes.
Notation n := (SchemeModel.total (sizes K ds)).
Notation arrive := (arrives st r g ms K qk).
Notation hist := (history st r g ms K qk simp hdt ds).
Notation sim := (simulates st r g es labs conds K qk inv simp ds a).
Notation at_cell x := (point g (cell_of g x)).
Notation fluid x := (In x (fluid_cells g Dm)).

(* the cell at x + o, around the box; x and the result are indices of the arrays with ghost cells *)
Definition around (o : list Z) (x : cell) : cell := wrap g (shift g x o).
(* o is along the periodic axes, and the obstacles moved by o are the obstacles *)
Definition period (o : list Z) : Prop := (forall d, (d < dim g)%nat -> periodic g d = false -> o@d = 0) /\
  forall x b, In x (inner_cells g) -> last_decides es (point g x) b -> last_decides es (point g (around o x)) b.

Lemma n_pos d : (d < dim g)%nat -> 0 < (g_n g)@d.
Proof using C. intros Hd. exact (proj2 (proj2 (u_room _ _ _ _ _ _ _ _ _ _ C) d Hd)). Qed.
Lemma around_nth o x d : (d < dim g)%nat -> (around o x)@d = (g_h g)@d + (x@d + o@d - (g_h g)@d) mod (g_n g)@d.
Proof using. intros Hd. unfold around. now rewrite wrap_nth, shift_nth by exact Hd. Qed.
Lemma decides x b : In x (inner_cells g) -> last_decides es (point g x) b <-> d_ioo Dm x = b.
Proof using C.
  intros Hx. apply filter_In in Hx. destruct Hx as [H1 H2]. apply array_cells_in in H1. destruct H1 as [_ B].
  destruct (C15_last_element_decides g es Dm x (u_grid _ _ _ _ _ _ _ _ _ _ C)) as [[X _]|[_ L]]; [intros e He; now apply (u_elems _ _ _ _ _ _ _ _ _ _ C)|apply (u_dom _ _ _ _ _ _ _ _ _ _ C)|intros d Hd; now apply B|congruence|].
  split; [intros L'; exact (last_decides_fun _ _ _ _ L L')|intros <-; exact L].
Qed.
Lemma around_in o x : In (around o x) (inner_cells g).
Proof using C. apply (wrap_in _ _ _ _ _ _ _ _ _ _ C). Qed.
Lemma around_ioo o x : period o -> In x (inner_cells g) -> d_ioo Dm (around o x) = d_ioo Dm x.
Proof using C. intros [_ P] Hx. apply decides; [apply around_in|]. apply P; [exact Hx|]. now apply decides. Qed.
Lemma around_fluid o x : period o -> fluid x -> fluid (around o x).
Proof using C.
  intros P Hx. pose proof (fluid_inner _ _ _ _ _ _ _ _ _ _ C x Hx) as Hin. apply filter_In in Hx. apply filter_In.
  split; [pose proof (around_in o x) as A; now apply filter_In in A|]. rewrite around_ioo by assumption. apply Hx.
Qed.
Lemma around_before o x k : (forall d, (d < dim g)%nat -> periodic g d = false -> o@d = 0) -> In x (inner_cells g) ->
  between g (before st g k (around o x)) = between g (before st g k x) /\
  wrap g (before st g k (around o x)) = around o (wrap g (before st g k x)).
Proof using C.
  intros P Hx. apply (inner_iff _ _ _ _ _ _ _ _ _ _ C) in Hx. destruct Hx as [Lx Hi]. split.
  - assert (X : forall d, (d < dim g)%nat -> periodic g d = false -> (before st g k (around o x))@d = (before st g k x)@d).
    { intros d Hd Pd. rewrite !before_nth, around_nth, (P d Hd Pd) by exact Hd. pose proof (proj1 (interior_spec g x) Hi d Hd). rewrite Z.mod_small by lia. lia. }
    apply Bool.eq_iff_eq_true. rewrite !between_spec. split; intros H d Hd Pd; specialize (H d Hd Pd); rewrite (X d Hd Pd) in *; exact H.
  - apply (cell_ext g); [apply wrap_len|apply wrap_len|]. intros d Hd. rewrite around_nth, !wrap_nth, !before_nth, around_nth by exact Hd. pose proof (n_pos d Hd).
    set (h := (g_h g)@d). set (N := (g_n g)@d) in *. set (v := (velk st k)@d). f_equal.
    replace (h + (x@d + o@d - h) mod N - v - h) with ((x@d + o@d - h) mod N + - v) by lia.
    replace (h + (x@d - v - h) mod N + o@d - h) with ((x@d - v - h) mod N + o@d) by lia. rewrite !Zplus_mod_idemp_l. f_equal. lia.
Qed.
Lemma around_source o k x : period o -> fluid x -> dsource st g Dm k (around o x) = option_map (around o) (dsource st g Dm k x).
Proof using C.
  intros P Hx. pose proof (fluid_inner _ _ _ _ _ _ _ _ _ _ C x Hx) as Hin. destruct (around_before o x k (proj1 P) Hin) as [B1 B2]. unfold dsource.
  rewrite B1, B2, (around_ioo o _ P (wrap_in _ _ _ _ _ _ _ _ _ _ C _)). destruct (between g (before st g k x) && d_ioo Dm (wrap g (before st g k x)))%bool; reflexivity.
Qed.
(* in the cells of the domain *)
Lemma around_moved o x : In x (inner_cells g) -> wrapg g (around o x) = moved g o (wrapg g x).
Proof using C.
  intros Hx. apply (inner_iff _ _ _ _ _ _ _ _ _ _ C) in Hx. destruct Hx as [Lx Hi]. unfold moved. rewrite (cell_wrapg g x Lx Hi). apply wrapg_wrap. apply (u_grid _ _ _ _ _ _ _ _ _ _ C).
Qed.

Lemma arrive_duct phi G x k y : at_rest r n phi -> (k < n)%nat -> fluid x -> arrive phi G (wrapg g x) k y ->
  y = match dsource st g Dm k x with Some z => G (wrapg g z) k | None => G (wrapg g x) (symk r k) end.
Proof using E C HI D EB Hsz.
  intros Hphi Hk Hx Hy. pose proof (whole_na schemes K inv simp dm hdt ds a HI D EB Hsz) as N1. rewrite (whole_size K inv simp dm hdt ds a HI D EB) in N1.
  rewrite N1 in *. rewrite <- (duct_transport _ _ _ _ _ _ _ _ _ _ C K qk (feq_of st phi g) ltac:(intros b j Hj; apply Hphi; exact Hj) Cython (gfield g K G) (fun y => G (wrapg g y))
    ltac:(intros j c _; unfold gfield; now rewrite wrapg_wrap by apply (u_grid _ _ _ _ _ _ _ _ _ _ C)) k x Hk Hx).
  eapply arrives_unique; [exact E|exact Hy|].
  destruct (fluid_inside dimz schemes st r g es labs conds Dm ms E x Hx) as (Lx & _ & Hint). rewrite <- (cell_wrapg g x Lx Hint) at 2.
  apply (arrives_bc dimz schemes st r g es labs conds Dm ms E (duct_quiet _ _ _ _ _ _ _ _ _ _ E C)).
Qed.
(* Two histories: if the first state of the second one is the first state of the first one moved by
   a period, this holds at all times. *)
Theorem C101_history phis phis' G G' o : period o -> hist phis G -> hist phis' G' -> (forall t, at_rest r n (phis t)) -> (forall t, at_rest r n (phis' t)) ->
  (forall x, fluid x -> agree K n (G' 0%nat (wrapg g x)) (G 0%nat (moved g o (wrapg g x)))) ->
  forall t x, fluid x -> agree K n (G' t (wrapg g x)) (G t (moved g o (wrapg g x))).
Proof using E C HI HSi D O EB Hsz.
  intros P HG HG' R R' H0. induction t as [|t IH]; intros x Hx; [now apply H0|].
  pose proof (fluid_inner _ _ _ _ _ _ _ _ _ _ C x Hx) as Hin. pose proof (around_fluid o x P Hx) as Hm.
  rewrite <- (around_moved o x Hin). destruct (HG' t (wrapg g x)) as (f' & F1' & F2'). destruct (HG t (wrapg g (around o x))) as (f & F1 & F2).
  apply (step_fun K simp hdt ds HSi D O inv None dm a HI EB f' f); [|exact F2'|exact F2]. intros k Hk.
  rewrite (arrive_duct (phis' t) (G' t) x k (f' k) (R' t) Hk Hx (F1' k Hk)), (arrive_duct (phis t) (G t) (around o x) k (f k) (R t) Hk Hm (F1 k Hk)).
  rewrite (around_source o k x P Hx). pose proof (whole_na schemes K inv simp dm hdt ds a HI D EB Hsz) as N1. rewrite (whole_size K inv simp dm hdt ds a HI D EB) in N1.
  destruct (dsource st g Dm k x) as [y|] eqn:Es; cbn [option_map].
  - destruct (dsource_ok _ _ _ _ _ _ _ _ _ _ C k x y ltac:(rewrite <- N1; exact Hk) Hx Es) as [Hy _].
    rewrite (around_moved o y (fluid_inner _ _ _ _ _ _ _ _ _ _ C y Hy)). now apply IH.
  - rewrite (around_moved o x Hin). apply IH; [exact Hx|].
    rewrite N1 in *. now apply (VesselProofs.sym_facts dimz schemes st r g Dm conds (labels_of g labs) ms (u_set _ _ _ _ _ _ _ _ _ _ C) (u_nodup _ _ _ _ _ _ _ _ _ _ C) k).
Qed.
Lemma start_moved l l' G0 G0' o : period o ->
  (forall x, cell_in g x -> initial_state K simp ds l (at_cell x) (G0 x)) -> (forall x, cell_in g x -> initial_state K simp ds l' (at_cell x) (G0' x)) ->
  (forall x rk v, fluid x -> given_value K ds l rk (point g (around o x)) v -> given_value K ds l' rk (point g x) v) ->
  forall x, fluid x -> agree K n (G0' (wrapg g x)) (G0 (moved g o (wrapg g x))).
Proof using E C HI D O EB.
  intros P H H' HD x Hx. pose proof (fluid_inner _ _ _ _ _ _ _ _ _ _ C x Hx) as Hin. rewrite <- (around_moved o x Hin).
  destruct (fluid_inside dimz schemes st r g es labs conds Dm ms E x Hx) as (Lx & _ & Hint).
  destruct (fluid_inside dimz schemes st r g es labs conds Dm ms E _ (around_fluid o x P Hx)) as (Lm & _ & Hm).
  pose proof (H' (wrapg g x) ltac:(eapply wrapg_in; exact E)) as A. pose proof (H (wrapg g (around o x)) ltac:(eapply wrapg_in; exact E)) as B.
  rewrite (cell_wrapg g x Lx Hint) in A. rewrite (cell_wrapg g _ Lm Hm) in B.
  apply (C68_determined K simp ds inv None dm hdt a HI D O EB l' (point g x) _ _ A). destruct B as [B1 B2]. split; [|exact B2].
  intros rk c b i Hr Hmo. apply HD; [exact Hx|]. now apply (B1 rk c).
Qed.
(* The values given by the user moved by a period: the whole simulation is moved by it. *)
Theorem C101_simulation l l' phis phis' o : period o -> data_ok K ds l -> data_ok K ds l' -> walls_ok K phis -> walls_ok K phis' ->
  (forall t, at_rest r n (phis t)) -> (forall t, at_rest r n (phis' t)) ->
  (forall x rk v, fluid x -> given_value K ds l rk (point g (around o x)) v -> given_value K ds l' rk (point g x) v) ->
  exists G G', sim l phis G /\ sim l' phis' G' /\ forall t x, fluid x -> agree K n (G' t (wrapg g x)) (G t (moved g o (wrapg g x))).
Proof using E C HI HSi D O EB HPl Hsz.
  intros P Hl Hl' Hp Hp' R R' HD. pose proof (duct_quiet _ _ _ _ _ _ _ _ _ _ E C) as HQ.
  destruct (flow dimz schemes st r g es labs conds Dm ms E K qk inv simp dm hdt ds a HI HSi D O EB HPl Hsz HQ l phis Hl Hp) as (G & G0 & GH & GS).
  destruct (flow dimz schemes st r g es labs conds Dm ms E K qk inv simp dm hdt ds a HI HSi D O EB HPl Hsz HQ l' phis' Hl' Hp') as (G' & G0' & GH' & GS').
  exists G, G'. split; [exact GS|]. split; [exact GS'|]. apply (C101_history phis phis' G G' o P GH GH' R R').
  now apply (start_moved l l' (G 0%nat) (G' 0%nat) o).
Qed.
(* Values with a period: the simulation has this period at all times. *)
Theorem C101_periodic l phis : data_ok K ds l -> walls_ok K phis -> (forall t, at_rest r n (phis t)) ->
  exists G, sim l phis G /\ forall o, period o ->
  (forall x rk v, fluid x -> given_value K ds l rk (point g (around o x)) v -> given_value K ds l rk (point g x) v) ->
  forall t x, fluid x -> agree K n (G t (wrapg g x)) (G t (moved g o (wrapg g x))).
Proof using E C HI HSi D O EB HPl Hsz.
  intros Hl Hp R. pose proof (duct_quiet _ _ _ _ _ _ _ _ _ _ E C) as HQ.
  destruct (flow dimz schemes st r g es labs conds Dm ms E K qk inv simp dm hdt ds a HI HSi D O EB HPl Hsz HQ l phis Hl Hp) as (G & G0 & GH & GS).
  exists G. split; [exact GS|]. intros o P HD. apply (C101_history phis phis G G o P GH GH R R). now apply (start_moved l l (G 0%nat) (G 0%nat) o).
Qed.
(* No obstacle, values which do not change along the periodic axes: neither does the simulation. *)
Theorem C101_plane l phis : es = [] -> data_ok K ds l -> walls_ok K phis -> (forall t, at_rest r n (phis t)) ->
  (forall x y rk v, In x (inner_cells g) -> In y (inner_cells g) -> (forall d, (d < dim g)%nat -> periodic g d = false -> x@d = y@d) ->
     given_value K ds l rk (point g y) v -> given_value K ds l rk (point g x) v) ->
  exists G, sim l phis G /\ forall t x y, In x (inner_cells g) -> In y (inner_cells g) -> (forall d, (d < dim g)%nat -> periodic g d = false -> x@d = y@d) ->
  agree K n (G t (wrapg g x)) (G t (wrapg g y)).
Proof using E C HI HSi D O EB HPl Hsz.
  intros He Hl Hp R HD. destruct (C101_periodic l phis Hl Hp R) as (G & GS & HG). exists G. split; [exact GS|]. intros t x y Hx Hy Hxy.
  set (o := map (fun d => y@d - x@d) (DomainModel.axes g)). assert (Ho : forall d, (d < dim g)%nat -> o@d = y@d - x@d) by (intros d Hd; unfold o; now rewrite nth_axes).
  assert (P : period o).
  { split; [intros d Hd Pd; rewrite Ho, (Hxy d Hd Pd) by exact Hd; lia|]. rewrite He. intros z b _ [[_ L]|(l1 & e & l2 & X & _)]; [left; split; [intros e []|exact L]|destruct l1; discriminate]. }
  assert (Ey : around o x = y).
  { pose proof (proj1 (inner_iff _ _ _ _ _ _ _ _ _ _ C y) Hy) as [Ly Iy]. apply (cell_ext g); [apply wrap_len|exact Ly|]. intros d Hd. rewrite around_nth, Ho by exact Hd.
    pose proof (proj1 (interior_spec g y) Iy d Hd). replace (x@d + (y@d - x@d) - (g_h g)@d) with (y@d - (g_h g)@d) by lia. rewrite Z.mod_small by lia. lia. }
  assert (Fx : fluid x).
  { apply filter_In. split; [now apply filter_In in Hx|]. apply decides; [exact Hx|]. rewrite He. left. split; [intros e []|reflexivity]. }
  rewrite <- Ey, (around_moved o x Hx). apply HG; [exact P| |exact Fx]. intros z rk v Hz Hv. pose proof (fluid_inner _ _ _ _ _ _ _ _ _ _ C z Hz) as Hzi.
  apply (HD z (around o z) rk v Hzi (around_in o z)); [|exact Hv]. intros d Hd Pd. rewrite around_nth, (proj1 P d Hd Pd) by exact Hd.
  pose proof (proj1 (interior_spec g z) (proj2 (proj1 (inner_iff _ _ _ _ _ _ _ _ _ _ C z) Hzi)) d Hd). rewrite Z.mod_small by lia. lia.
Qed.
End Shift.
Print Assumptions C101_history.
Print Assumptions C101_simulation.
Print Assumptions C101_periodic.
Print Assumptions C101_plane.

(* Four by six cells, walls along the first axis, the second one is periodic; the cells (2, 2) and (2, 5)
   are solid.  The period is three cells. *)
Definition pgrid : grid := mkGrid [4; 6] [1; 1] [2; 2; -1; -1] [[-1; 1]; [1; -1]] [0; 0]%Q 1%Q.
Definition posts : list elem := [block [3 # 2; 3 # 2]%Q [5 # 2; 5 # 2]%Q; block [3 # 2; 9 # 2]%Q [5 # 2; 11 # 2]%Q].
Definition pD : dom := match domain_init pgrid posts with Some D => D | None => mkDom (fun _ => false) (fun _ _ => link0) end.
Definition pms : list (method * list blink) := match boundary xst pgrid pD bb (labels_of pgrid [5]) with Some ms => ms | None => [] end.
Lemma pwf : wf_grid pgrid.
Proof.
  split; [reflexivity|]. split.
  - intros d Hd. cbn in Hd. destruct d as [|[|d]]; cbn; lia.
  - intros v d Hv Hd. cbn in Hv, Hd. destruct Hv as [<-|[<-|[]]]; (destruct d as [|[|d]]; [| |lia]); cbn; lia.
Qed.
Lemma posts_thick : thick pgrid posts.
Proof.
  intros es1 e es2 Ee x v Hv Hx Hs Hi Ha. assert (H : exists lo hi, e = block lo hi).
  { assert (I : In e posts) by (rewrite Ee; apply in_or_app; right; now left). destruct I as [<-|[<-|[]]]; eauto. }
  destruct H as (lo & hi & ->). exists (block lo hi). split; [apply in_or_app; right; now left|].
  destruct (proj2 (block_obstacle pgrid lo hi eq_refl) [] (block lo hi) [] eq_refl x v Hv Hx Hs Hi Ha) as (e' & [<-|[]] & He'). exact He'.
Qed.
Lemma pserial : serial 2 [[6; 8]] xst [1; 0] pgrid posts [5] bb pD pms.
Proof.
  split.
  - intros s x [<-|[]] Hx. cbn in Hx. lia.
  - reflexivity.
  - reflexivity.
  - reflexivity.
  - split; [reflexivity|]. cbn. lia.
  - exact pwf.
  - intros lb s m1 m2 [E1|[]] [E2|[]]; congruence.
  - reflexivity.
  - split; cbn; unfold valin; intuition discriminate.
  - intros e [<-|[<-|[]]]; apply (block_obstacle pgrid _ _ eq_refl).
  - exact posts_thick.
  - cbn. unfold valin. intuition discriminate.
  - reflexivity.
  - vm_compute; reflexivity.
Qed.
Lemma pslow : slow pgrid.
Proof. intros v d [<-|[<-|[]]] Hd; cbn in Hd; (destruct d as [|[|d]]; [| |lia]); cbn; lia. Qed.
Lemma pwall lab : In lab [2; 5] -> wall bb (labels_of pgrid [5]) 1 lab.
Proof.
  intros [<-|[<-|[]]]; (split; [vm_compute; auto|split; [discriminate|split; [discriminate|intros [|s] Hs; [now left|lia]]]]).
Qed.
Lemma pduct : duct 2 [[6; 8]] xst [1; 0] pgrid posts pD bb (labels_of pgrid [5]) pms.
Proof.
  pose proof pserial as E. split.
  - exact (serial_setting _ _ _ _ _ _ _ _ _ _ E).
  - repeat constructor; cbn; intuition discriminate.
  - exact pwf.
  - split; [cbn; lia|]. intros [|[|d]] Hd; cbn in Hd |- *; lia.
  - intros e He. split; apply (e_obst _ _ _ _ _ _ _ _ _ _ E e He).
  - intros e c [<-|[<-|[]]] C; discriminate.
  - intros e [<-|[<-|[]]] [|[|d]] Hd P; cbn in Hd; try lia; try discriminate; vm_compute; auto.
  - apply E.
  - intros [|[|d]] Hd P; cbn in Hd; try lia; try discriminate. split; apply pwall; now left.
  - intros e x dv [<-|[<-|[]]] _; apply pwall; right; now left.
  - exact pslow.
  - intros [|[|d]] [|[|d']] Hd Hd' P P'; cbn in Hd, Hd'; try lia; discriminate.
Qed.
Lemma pperiod : period pgrid posts [0; 3].
Proof.
  split; [intros [|[|d]] Hd P; cbn in Hd; try lia; [reflexivity|discriminate]|].
  intros x b Hx Hb. apply (decides _ _ _ _ _ _ _ _ _ _ pduct _ _ Hx) in Hb. apply (decides _ _ _ _ _ _ _ _ _ _ pduct); [apply (around_in _ _ _ _ _ _ _ _ _ _ pduct)|]. rewrite <- Hb. clear b Hb.
  assert (A : forallb (fun x => Bool.eqb (d_ioo pD (around pgrid [0; 3] x)) (d_ioo pD x)) (inner_cells pgrid) = true) by (vm_compute; reflexivity).
  rewrite forallb_forall in A. apply Bool.eqb_prop. exact (A x Hx).
Qed.
Definition dch : sdict Zring :=
  mkSdict Zring [[-1; 1]; [1; -1]] [Num (K := Zring) 1%Z; Un zhalf (Bin zadd X (Num (K := Zring) 1%Z))] None
    [Num (K := Zring) 0%Z; Num (K := Zring) 2%Z] [Var 5; q3] None [5%nat] [].
Definition cinv := zinv [mat2 [[1; -1]; [0; 1]]].
Definition cbuild := build Zring cinv nosimp None 2 1 [dch].
Lemma dch_moment c b i : is_moment Zring nosimp [dch] c b i <-> (c = 5 /\ b = 0 /\ i = 0)%nat.
Proof.
  split.
  - intros (d & H1 & H2 & H3 & H4 & _). destruct b as [|[|b]]; try discriminate. injection H1 as <-.
    destruct i as [|[|i]]; cbn in H4, H3; [split; [congruence|auto]|discriminate|lia].
  - intros (-> & -> & ->). exists dch. split; [reflexivity|]. split; [now left|]. split; [cbn; lia|]. split; [reflexivity|]. intros j Hj. lia.
Qed.
Lemma dch_ok : dict_ok Zring nosimp [dch].
Proof.
  constructor; unfold BuildProofs.closed; cbn.
  - repeat constructor.
  - intros d N [<-|[]] E. discriminate.
  - repeat constructor. intros [].
  - intros d t [<-|[]] Ht c Hc. cbn in Ht. destruct Ht as [<-|[<-|[]]]; cbn in Hc; intuition.
  - intros d t [<-|[]] Ht c Hc. cbn in Ht. destruct Ht as [<-|[<-|[]]]; destruct Hc.
  - intros d c g [<-|[]] Hc. destruct Hc.
Qed.
Lemma dch_ordered : ordered Zring nosimp [dch].
Proof. intros k c b i Hk Hm. apply dch_moment in Hm as (-> & -> & ->). destruct k as [|[|k]]; try discriminate. cbn. lia. Qed.
Lemma dch_below d t : In d [dch] -> In t (sd_P Zring d) -> below Zring 2 t.
Proof. intros [<-|[]] Ht. cbn in Ht. destruct Ht as [<-|[<-|[]]]; intros x Hx; cbn in Hx; intuition lia. Qed.
(* 10 times the second coordinate *)
Definition jfun (x : list Q) : Z := Qround.Qfloor (10 * nth 1 x 0 + nth 0 x 0)%Q.
(* the same in the cell three cells further *)
Definition jmoved (x : list Q) : Z := jfun [nth 0 x 0%Q; inject_Z ((Qround.Qfloor (nth 1 x 0%Q) - 1 + 3) mod 6 + 1)].
Lemma nth_Qeq x y d : Forall2 Qeq x y -> (nth d x 0 == nth d y 0)%Q.
Proof. intros H. revert d. induction H as [|u v x y Huv _ IH]; intros [|d]; cbn; try reflexivity; [exact Huv|apply IH]. Qed.
Lemma jfun_regular x y : Forall2 Qeq x y -> jfun x = jfun y.
Proof. intros H. unfold jfun. apply Qround.Qfloor_comp. now rewrite (nth_Qeq x y 1 H), (nth_Qeq x y 0 H). Qed.
Lemma jmoved_regular x y : Forall2 Qeq x y -> jmoved x = jmoved y.
Proof.
  intros H. unfold jmoved. rewrite (Qround.Qfloor_comp _ _ (nth_Qeq x y 1 H)). apply jfun_regular. constructor; [exact (nth_Qeq x y 0 H)|]. constructor; [reflexivity|constructor].
Qed.
Lemma dch_data f : (forall x y, Forall2 Qeq x y -> f x = f y) -> data_ok Zring [dch] [(ISym 5, f)].
Proof. intros Hf. split; [intros p x y [<-|[]] H; now apply Hf|]. intros p [<-|[]]. exists 0%nat. split; [cbn; lia|reflexivity]. Qed.
Example C101_example : exists a, cbuild = Some a /\ exists G G',
  simulates xst [1; 0] pgrid posts [5] bb Zring (fun _ => 0) cinv nosimp [dch] a [(ISym 5, jfun)] wphi G /\
  simulates xst [1; 0] pgrid posts [5] bb Zring (fun _ => 0) cinv nosimp [dch] a [(ISym 5, jmoved)] wphi G' /\
  (forall t, agree Zring 2 (G' t [0; 5]) (G t [0; 2]) /\ agree Zring 2 (G' t [1; 0]) (G t [1; 3])) /\
  map (fun x => d_ioo pD x) [[2; 1]; [2; 2]; [2; 3]; [2; 4]; [2; 5]; [2; 6]] = [true; false; true; true; false; true].
Proof.
  destruct (built_ex cbuild) as [a Ea]; [vm_compute; reflexivity|]. exists a. split; [exact Ea|].
  destruct (C101_simulation 2 [[6; 8]] xst [1; 0] pgrid posts [5] bb pD pms pserial pduct Zring (fun _ => 0) cinv nosimp 2 1 [dch] a (zinv_ok _) fsimp
    dch_ok dch_ordered Ea dch_below eq_refl [(ISym 5, jfun)] [(ISym 5, jmoved)] wphi wphi [0; 3] pperiod) as (G & G' & G1 & G2 & G3); try exact wphi_ok.
  - apply dch_data. exact jfun_regular.
  - apply dch_data. exact jmoved_regular.
  - intros t lab x k _. reflexivity.
  - intros t lab x k _. reflexivity.
  - intros x rk v Hx Hv. apply given_one in Hv. apply given_one. destruct Hv as [[R ->]|[R ->]]; [left; split; [exact R|]|right; split; [exact R|reflexivity]].
    assert (A : forallb (fun x => jfun (point pgrid (around pgrid [0; 3] x)) =? jmoved (point pgrid x)) (fluid_cells pgrid pD) = true) by (vm_compute; reflexivity).
    rewrite forallb_forall in A. apply Z.eqb_eq. exact (A x Hx).
  - exists G, G'. split; [exact G1|]. split; [exact G2|]. split; [|vm_compute; reflexivity]. intros t. split.
    + apply (G3 t [1; 6]). vm_compute. tauto.
    + apply (G3 t [2; 1]). vm_compute. tauto.
Qed.
(* The period is needed: with the obstacle of C67_example alone (cells (2, 2) and (2, 3)) one cell is none. *)
Example C101_no_period : ~ period cgrid post [0; 1].
Proof.
  intros [_ P]. specialize (P [2; 1] true). assert (I : In [2; 1] (inner_cells cgrid)) by (vm_compute; tauto).
  assert (L : last_decides post (point cgrid [2; 1]) true) by (left; split; [intros e [<-|[]]; reflexivity|reflexivity]). specialize (P I L).
  destruct P as [[P _]|(l1 & e & l2 & X & He & _ & Hf)].
  - specialize (P _ (or_introl eq_refl)). vm_compute in P. discriminate.
  - destruct l1 as [|e1 [|? ?]]; [injection X as <- <-; discriminate|discriminate|discriminate].
Qed.
