(* Lemmas on the STL elements: the intersection of a half line with a triangle, the
   first intersection with a mesh. *)
From Verif Require Import PyBase GridModel DomainModel DomainProofs StlModel.
From Coq Require Import QArith Qminmax Lqa.
Open Scope Q_scope.

(* ---- specifications ---- *)
Definition at_ (x v : p3) (s : Q) : p3 := P3 (qx x + s * qx v) (qy x + s * qy v) (qz x + s * qz v).
Definition cross3 (p q : p3) : p3 :=
  P3 (qy p * qz q - qz p * qy q) (qz p * qx q - qx p * qz q) (qx p * qy q - qy p * qx q).
(* q is a point of the triangle *)
Definition on_tri (T : tri) (q : p3) : Prop := exists a b, 0 <= a /\ 0 <= b /\ a + b <= 1 /\
  qx q == a * qx (t_c T) + b * qx (t_b T) + (1 - a - b) * qx (t_a T) /\
  qy q == a * qy (t_c T) + b * qy (t_b T) + (1 - a - b) * qy (t_a T) /\
  qz q == a * qz (t_c T) + b * qz (t_b T) + (1 - a - b) * qz (t_a T).
Definition on_mesh (mesh : list tri) (q : p3) : Prop := exists T, In T mesh /\ on_tri T q.
Definition eq3 (p q : p3) : Prop := qx p == qx q /\ qy p == qy q /\ qz p == qz q.
(* the direction v is in the plane of the triangle *)
Definition parallel_to (v : p3) (T : tri) : Prop := dot3 v (cross3 (sub3 (t_b T) (t_a T)) (sub3 (t_c T) (t_a T))) == 0.

Lemma on_tri_eq T p q : eq3 p q -> on_tri T p -> on_tri T q.
Proof. intros (E1 & E2 & E3) (a & b & H1 & H2 & H3 & H4 & H5 & H6). exists a, b. now rewrite <- E1, <- E2, <- E3. Qed.
Lemma at_eq x v s s' : s == s' -> eq3 (at_ x v s) (at_ x v s').
Proof. intros E. unfold eq3, at_. cbn [qx qy qz]. now rewrite E. Qed.
Lemma det_cross v T : det3 (mat v T) == dot3 v (cross3 (sub3 (t_b T) (t_a T)) (sub3 (t_c T) (t_a T))).
Proof. unfold det3, mat, dot3, cross3, sub3. cbn [col0 col1 col2 qx qy qz]. ring. Qed.

(* ---- the intersection ---- *)
Lemma inter_spec x v T :
  match intersection x v T with
  | None => parallel_to v T
  | Some r => ~ parallel_to v T /\
      match r with
      | Some s => 0 <= s /\ on_tri T (at_ x v s) /\ forall s', 0 <= s' -> on_tri T (at_ x v s') -> s' == s
      | None => forall s, 0 <= s -> ~ on_tri T (at_ x v s)
      end
  end.
Proof.
  assert (PD : parallel_to v T <-> det3 (mat v T) == 0) by (unfold parallel_to; now rewrite det_cross).
  unfold intersection, inv3. destruct (Qeq_bool (det3 (mat v T)) 0) eqn:E; [now apply PD, Qeq_bool_iff|].
  assert (N : ~ det3 (mat v T) == 0) by (intros C; apply Qeq_bool_iff in C; congruence). clear E.
  assert (NP : ~ parallel_to v T) by now rewrite PD. clear PD.
  cbv zeta. set (d := det3 (mat v T)) in *. set (P := sub3 x (t_a T)).
  set (s0 := dot3 _ P). set (s1 := dot3 _ P). set (s2 := dot3 _ P).
  destruct x as [x1 x2 x3], v as [v1 v2 v3], T as [[a1 a2 a3] [b1 b2 b3] [c1 c2 c3] [n1 n2 n3]].
  assert (U : forall a b s, x1 + s * v1 == a * c1 + b * b1 + (1 - a - b) * a1 -> x2 + s * v2 == a * c2 + b * b2 + (1 - a - b) * a2 ->
    x3 + s * v3 == a * c3 + b * b3 + (1 - a - b) * a3 -> a == s0 /\ b == s1 /\ s == s2).
  { intros a b s E1 E2 E3.
    assert (F1 : x1 - a1 == a * (c1 - a1) + b * (b1 - a1) - s * v1) by lra.
    assert (F2 : x2 - a2 == a * (c2 - a2) + b * (b2 - a2) - s * v2) by lra.
    assert (F3 : x3 - a3 == a * (c3 - a3) + b * (b3 - a3) - s * v3) by lra.
    subst s0 s1 s2 P d. unfold dot3, mat, det3, sub3 in *. cbn [col0 col1 col2 qx qy qz t_a t_b t_c] in *. rewrite F1, F2, F3.
    (split; [|split]); field; exact N. }
  assert (S : x1 + s2 * v1 == s0 * c1 + s1 * b1 + (1 - s0 - s1) * a1 /\ x2 + s2 * v2 == s0 * c2 + s1 * b2 + (1 - s0 - s1) * a2 /\
    x3 + s2 * v3 == s0 * c3 + s1 * b3 + (1 - s0 - s1) * a3).
  { clear U. subst s0 s1 s2 P d. unfold dot3, mat, det3, sub3 in *. cbn [col0 col1 col2 qx qy qz t_a t_b t_c] in *. (split; [|split]); field; exact N. }
  clearbody s0 s1 s2. clear P.
  destruct ((Qle_bool 0 s0 && Qle_bool 0 s1) && (Qle_bool (s0 + s1) 1 && Qle_bool 0 s2)) eqn:E.
  - rewrite !andb_true_iff, !Qle_bool_iff in E. destruct E as [[B1 B2] [B3 B4]]. split; [exact NP|]. split; [exact B4|]. split.
    + exists s0, s1. repeat (split; [assumption|]). exact S.
    + intros s' _ (a & b & _ & _ & _ & H). cbn [at_ qx qy qz t_a t_b t_c] in H. now apply (U a b).
  - split; [exact NP|]. intros s Hs (a & b & H1 & H2 & H3 & H). cbn [at_ qx qy qz t_a t_b t_c] in H. destruct (U a b s) as (E1 & E2 & E3); try apply H.
    assert (C : (Qle_bool 0 s0 && Qle_bool 0 s1) && (Qle_bool (s0 + s1) 1 && Qle_bool 0 s2) = true); [|congruence].
    rewrite !andb_true_iff, !Qle_bool_iff. rewrite <- E1, <- E2, <- E3. auto.
Qed.

(* a hit: the half line from x meets the triangle T, which is not parallel to it *)
Definition hits (x v : p3) (T : tri) (s : Q) : Prop := 0 <= s /\ on_tri T (at_ x v s) /\ ~ parallel_to v T.
Lemma ltx_spec s t : ltx s t = true <-> exists a, s = Some a /\ (t = None \/ exists b, t = Some b /\ a < b).
Proof.
  destruct s as [a|]; [|split; [discriminate|intros (a & H & _); discriminate]]. destruct t as [b|]; cbn.
  - rewrite Qltb_true. split; [eauto 6|]. intros (a' & E & [C|(b' & E' & H)]); [discriminate|]. congruence.
  - split; eauto.
Qed.

(* ---- the loop of distance ---- *)
Section Distance.
Variables (label : Z) (x v : p3) (dmax : option Q).
Definition within (s : Q) : Prop := match dmax with None => True | Some m => s <= m end.
(* the result h for the triangles seen so far *)
Definition dist_ok (seen : list tri) (h : hit) : Prop :=
  match h with
  | (None, border, n) => border = (-1)%Z /\ n = P3 0 0 0 /\ forall T s, In T seen -> hits x v T s -> ~ within s
  | (Some a, border, n) => border = label /\ within a /\
      (exists l1 T l2, seen = l1 ++ T :: l2 /\ hits x v T a /\ n = t_n T /\ forall T' s, In T' l1 -> hits x v T' s -> within s -> a < s) /\
      (forall T s, In T seen -> hits x v T s -> within s -> a <= s)
  end.
Lemma dist_step_ok seen h T : dist_ok seen h -> dist_ok (seen ++ [T]) (dist_step label x v dmax h T).
Proof.
  intros H. unfold dist_step. pose proof (inter_spec x v T) as I. destruct (intersection x v T) as [r|].
  2:{ destruct h as [[[a|] border] n]; cbn in H |- *.
      - destruct H as (H1 & H2 & (l1 & T1 & l2 & -> & H3 & H4 & H4') & H5). split; [exact H1|]. split; [exact H2|]. split.
        + exists l1, T1, (l2 ++ [T]). split; [now rewrite <- app_assoc|]. auto.
        + intros T' s HT Hs. apply in_app_iff in HT. destruct HT as [HT|[<-|[]]]; [now apply (H5 T')|]. exfalso. now apply Hs.
      - destruct H as (H1 & H2 & H3). split; [exact H1|]. split; [exact H2|]. intros T' s HT Hs. apply in_app_iff in HT.
        destruct HT as [HT|[<-|[]]]; [now apply (H3 T')|]. exfalso. now apply Hs. }
  destruct I as [NP I].
  destruct (ltx r (fst (fst h)) && match dmax with None => true | Some m => lex_max r m end) eqn:E.
  - apply andb_true_iff in E. destruct E as [E1 E2]. apply ltx_spec in E1. destruct E1 as (a & -> & E1). destruct I as (Ha & Ia & Iu).
    assert (Wa : within a) by (unfold within; destruct dmax; [now apply Qle_bool_iff|constructor]).
    assert (L : forall T' s, In T' seen -> hits x v T' s -> within s -> a < s).
    { intros T' s HT Hs Hw. destruct h as [[[b|] border] n]; cbn in H, E1.
      - destruct E1 as [C|(b' & Eb & Hb)]; [discriminate|]. injection Eb as <-. destruct H as (_ & _ & _ & H). specialize (H T' s HT Hs Hw). lra.
      - exfalso. now apply (proj2 (proj2 H) T' s HT Hs). }
    cbn. split; [reflexivity|]. split; [exact Wa|]. split.
    + exists seen, T, []. split; [reflexivity|]. split; [split; auto|]. auto.
    + intros T' s HT Hs Hw. apply in_app_iff in HT. destruct HT as [HT|[<-|[]]]; [apply Qlt_le_weak; now apply (L T')|].
      destruct Hs as (Hs & Ho & _). rewrite (Iu s Hs Ho). apply Qle_refl.
  - assert (L : forall s, hits x v T s -> within s -> match fst (fst h) with Some b => b <= s | None => False end).
    { intros s (Hs & Ho & _) Hw. destruct r as [a|]; [|exfalso; now apply (I s)]. destruct I as (Ha & Ia & Iu). specialize (Iu s Hs Ho).
      apply andb_false_iff in E. destruct E as [E|E].
      - destruct (fst (fst h)) as [b|]; [|discriminate]. cbn in E. apply Qltb_false in E. lra.
      - exfalso. unfold within in Hw. destruct dmax as [m|]; [|discriminate]. cbn in E. rewrite Iu in Hw. apply Qle_bool_iff in Hw. congruence. }
    destruct h as [[[b|] border] n]; cbn in H, L |- *.
    + destruct H as (H1 & H2 & (l1 & T1 & l2 & -> & H3 & H4 & H4') & H5). split; [exact H1|]. split; [exact H2|]. split.
      * exists l1, T1, (l2 ++ [T]). split; [now rewrite <- app_assoc|]. auto.
      * intros T' s HT Hs Hw. apply in_app_iff in HT. destruct HT as [HT|[<-|[]]]; [now apply (H5 T')|now apply L].
    + destruct H as (H1 & H2 & H3). split; [exact H1|]. split; [exact H2|]. intros T' s HT Hs Hw. apply in_app_iff in HT.
      destruct HT as [HT|[<-|[]]]; [now apply (H3 T' s)|]. now apply (L s).
Qed.
Lemma dist_loop mesh : dist_ok mesh (stl_distance mesh label x v dmax).
Proof.
  unfold stl_distance. assert (G : forall l seen h, dist_ok seen h -> dist_ok (seen ++ l) (fold_left (dist_step label x v dmax) l h)).
  { induction l as [|T l IH]; intros seen h H; [now rewrite app_nil_r|]. cbn [fold_left]. replace (seen ++ T :: l) with ((seen ++ [T]) ++ l) by now rewrite <- app_assoc.
    apply IH. now apply dist_step_ok. }
  apply (G mesh []). cbn. split; [reflexivity|]. split; [reflexivity|]. intros T s [].
Qed.
End Distance.

(* ---- the loop of point_inside ---- *)
Lemma dir_loop x v mesh io :
  (inside_dir mesh x io v = io /\ forall T s, In T mesh -> ~ hits x v T s) \/
  (exists T s, In T mesh /\ hits x v T s /\ (forall T' s', In T' mesh -> hits x v T' s' -> s <= s') /\ inside_dir mesh x io v = Qle_bool 0 (dot3 v (t_n T))).
Proof.
  set (P := fun (seen : list tri) (st : ext * bool) =>
    (st = (None, io) /\ forall T s, In T seen -> ~ hits x v T s) \/
    (exists T s, In T seen /\ hits x v T s /\ (forall T' s', In T' seen -> hits x v T' s' -> s <= s') /\ st = (Some s, Qle_bool 0 (dot3 v (t_n T))))).
  assert (ST : forall seen st T, P seen st -> P (seen ++ [T]) (inside_step x v st T)).
  { intros seen st T H. unfold inside_step. pose proof (inter_spec x v T) as I. destruct (intersection x v T) as [r|].
    2:{ destruct H as [[-> H]|(T1 & s & H1 & H2 & H3 & ->)].
        - left. split; [reflexivity|]. intros T' s HT Hs. apply in_app_iff in HT. destruct HT as [HT|[<-|[]]]; [now apply (H T' s)|]. now apply Hs.
        - right. exists T1, s. split; [apply in_app_iff; now left|]. split; [exact H2|]. split; [|reflexivity]. intros T' s' HT Hs. apply in_app_iff in HT.
          destruct HT as [HT|[<-|[]]]; [now apply (H3 T')|]. exfalso. now apply Hs. }
    destruct I as [NP I]. destruct (ltx r (fst st)) eqn:E.
    - apply ltx_spec in E. destruct E as (a & -> & E). destruct I as (Ha & Ia & Iu). right. exists T, a. split; [apply in_app_iff; right; now left|].
      split; [split; auto|]. split; [|reflexivity]. intros T' s' HT Hs. apply in_app_iff in HT. destruct HT as [HT|[<-|[]]].
      + destruct H as [[-> H]|(T1 & s & H1 & H2 & H3 & ->)]; [exfalso; now apply (H T' s')|]. cbn in E. destruct E as [C|(b & Eb & Hb)]; [discriminate|].
        injection Eb as <-. specialize (H3 T' s' HT Hs). lra.
      + destruct Hs as (Hs & Ho & _). rewrite (Iu s' Hs Ho). apply Qle_refl.
    - destruct H as [[-> H]|(T1 & s & H1 & H2 & H3 & ->)].
      + left. split; [reflexivity|]. intros T' s' HT Hs. apply in_app_iff in HT. destruct HT as [HT|[<-|[]]]; [now apply (H T' s')|].
        destruct r as [a|]; [discriminate|]. destruct Hs as (Hs & Ho & _). now apply (I s').
      + right. exists T1, s. split; [apply in_app_iff; now left|]. split; [exact H2|]. split; [|reflexivity]. intros T' s' HT Hs. apply in_app_iff in HT.
        destruct HT as [HT|[<-|[]]]; [now apply (H3 T')|]. destruct Hs as (Hs & Ho & _). destruct r as [a|]; [|exfalso; now apply (I s')].
        destruct I as (Ha & Ia & Iu). rewrite (Iu s' Hs Ho). cbn in E. apply Qltb_false in E. exact E. }
  assert (G : forall l seen st, P seen st -> P (seen ++ l) (fold_left (inside_step x v) l st)).
  { induction l as [|T l IH]; intros seen st H; [now rewrite app_nil_r|]. cbn [fold_left]. replace (seen ++ T :: l) with ((seen ++ [T]) ++ l) by now rewrite <- app_assoc.
    apply IH. now apply ST. }
  assert (H : P mesh (fold_left (inside_step x v) mesh (None, io))) by (apply (G mesh []); left; split; [reflexivity|intros T s []]).
  unfold inside_dir. destruct H as [[-> H]|(T & s & H1 & H2 & H3 & ->)]; [left; auto|right; exists T, s; auto].
Qed.

(* ---- bodies ---- *)
(* the point at the fraction t of the segment from p to q *)
Definition seg (p q : p3) (t : Q) : p3 := at_ p (sub3 q p) t.
(* B is the inside of the surface: no segment goes from the inside to the outside
   without meeting the surface, and the half lines along the axes end outside *)
Record body (mesh : list tri) (B : p3 -> Prop) : Prop := {
  b_eq : forall p q, eq3 p q -> B p -> B q;
  b_sep : forall p q, (forall t, 0 <= t <= 1 -> ~ on_mesh mesh (seg p q t)) -> (B p <-> B q);
  b_ends : forall p v, In v directions -> exists s, 0 <= s /\ ~ B (at_ p v s)
}.
(* the normal vector is the one numpy-stl computes, up to its length *)
Definition normal_ok (T : tri) : Prop := exists k, 0 < k /\
  let c := cross3 (sub3 (t_b T) (t_a T)) (sub3 (t_c T) (t_a T)) in
  qx (t_n T) == k * qx c /\ qy (t_n T) == k * qy c /\ qz (t_n T) == k * qz c.
(* the half line from p along v crosses the surface where it meets it, and there the
   normal vectors point to the outside *)
Definition crosses (mesh : list tri) (B : p3 -> Prop) (p v : p3) : Prop :=
  forall T s, In T mesh -> 0 <= s -> on_tri T (at_ p v s) ->
    ~ parallel_to v T /\ exists eps, 0 < eps /\ forall t, 0 < t < eps -> (B (at_ p v (s - t)) <-> 0 < dot3 v (t_n T)).

Lemma normal_parallel v T : normal_ok T -> (dot3 v (t_n T) == 0 <-> parallel_to v T).
Proof.
  intros (k & Hk & E1 & E2 & E3). unfold parallel_to.
  assert (E : dot3 v (t_n T) == k * dot3 v (cross3 (sub3 (t_b T) (t_a T)) (sub3 (t_c T) (t_a T)))).
  { unfold dot3. rewrite E1, E2, E3. ring. }
  rewrite E. split; intros H.
  - apply Qmult_integral in H. destruct H as [H|H]; [lra|exact H].
  - rewrite H. ring.
Qed.
Lemma on_mesh_eq mesh p q : eq3 p q -> on_mesh mesh p -> on_mesh mesh q.
Proof. intros E (T & H & HT). exists T. split; [exact H|]. eapply on_tri_eq; eassumption. Qed.
Lemma seg_at p v s t : eq3 (seg p (at_ p v s) t) (at_ p v (t * s)).
Proof. unfold eq3, seg, at_, sub3. cbn [qx qy qz]. repeat split; ring. Qed.
Lemma eq3_sym p q : eq3 p q -> eq3 q p.
Proof. intros (H1 & H2 & H3). repeat split; now symmetry. Qed.

Lemma inside_body mesh B p : body mesh B -> Forall normal_ok mesh -> ~ on_mesh mesh p ->
  (forall v, In v directions -> crosses mesh B p v) -> (point_inside mesh p = true <-> B p).
Proof.
  intros HB HN Hp HC.
  assert (E0 : forall v, eq3 (at_ p v 0) p) by (intros v; unfold eq3, at_; cbn [qx qy qz]; repeat split; ring).
  (* one direction *)
  assert (D : forall v io, In v directions -> (inside_dir mesh p io v = io /\ ~ B p) \/ (inside_dir mesh p io v = true <-> B p)).
  { intros v io Hv. destruct (dir_loop p v mesh io) as [[E H]|(T & s & HT & Hs & Hm & E)].
    - left. split; [exact E|]. intros C. destruct (b_ends _ _ HB p v Hv) as (s & H0 & N). apply N. apply (b_sep _ _ HB p (at_ p v s)); [|exact C].
      intros t Ht (T & HT & Ho). apply (on_tri_eq T _ _ (seg_at p v s t)) in Ho.
      assert (0 <= t * s) by (apply Qmult_le_0_compat; lra).
      apply (H T (t * s) HT). split; [assumption|]. split; [exact Ho|]. now apply (HC v Hv T (t * s)).
    - right. rewrite E. destruct Hs as (H0 & Ho & NP). destruct (HC v Hv T s HT H0 Ho) as (_ & eps & He & Hb).
      assert (Hs : 0 < s).
      { apply Qle_lteq in H0. destruct H0 as [H0|H0]; [exact H0|]. exfalso. apply Hp. exists T. split; [exact HT|].
        apply (on_tri_eq T (at_ p v s)); [|exact Ho]. destruct (at_eq p v s 0) as (A1 & A2 & A3); [now symmetry|]. destruct (E0 v) as (A4 & A5 & A6).
        repeat split; etransitivity; eassumption. }
      assert (X : exists t, 0 < t /\ t < eps /\ t < s).
      { destruct (Qlt_le_dec eps s); [exists (eps / 2)|exists (s / 2)]; repeat split; try apply Qlt_shift_div_l; try apply Qlt_shift_div_r; lra. }
      destruct X as (t & T1 & T2 & T3). specialize (Hb t (conj T1 T2)).
      assert (S : B p <-> B (at_ p v (s - t))).
      { apply (b_sep _ _ HB). intros w Hw (T' & HT' & Ho'). apply (on_tri_eq T' _ _ (seg_at p v (s - t) w)) in Ho'.
        assert (0 <= w * (s - t)) by (apply Qmult_le_0_compat; lra).
        assert (Hh : hits p v T' (w * (s - t))) by (split; [assumption|]; split; [exact Ho'|]; now apply (HC v Hv T' (w * (s - t)))).
        specialize (Hm T' _ HT' Hh). nra. }
      rewrite S, Hb, Qle_bool_iff. rewrite Forall_forall in HN. specialize (HN T HT). pose proof (normal_parallel v T HN) as NV.
      split; intros Hd; [|lra]. apply Qle_lteq in Hd. destruct Hd as [Hd|Hd]; [exact Hd|]. exfalso. apply NP. apply NV. now symmetry. }
  unfold point_inside. cbn [fold_left directions].
  set (b1 := inside_dir mesh p false _). set (b2 := inside_dir mesh p b1 _). set (b3 := inside_dir mesh p b2 _).
  assert (D1 : b1 = true <-> B p).
  { destruct (D (P3 1 0 0) false) as [[E N]|H]; [cbn; auto|fold b1 in E; rewrite E; split; [discriminate|tauto]|exact H]. }
  assert (D2 : b2 = true <-> B p).
  { destruct (D (P3 0 1 0) b1) as [[E N]|H]; [cbn; auto|fold b2 in E; rewrite E; exact D1|exact H]. }
  destruct (D (P3 0 0 1) b2) as [[E N]|H]; [cbn; auto|fold b3 in E; rewrite E; exact D2|exact H].
Qed.

(* ---- convex bodies ---- *)
Definition side (T : tri) (q : p3) : Q := dot3 (t_n T) (sub3 q (t_a T)).
Definition strictly_inside (mesh : list tri) (q : p3) : Prop := forall T, In T mesh -> side T q < 0.
Record convex (mesh : list tri) : Prop := {
  x_normal : Forall normal_ok mesh;
  (* all the triangles are on the inner side of the plane of each of them *)
  x_inner : forall T T' q, In T mesh -> In T' mesh -> on_tri T' q -> side T q <= 0;
  (* the triangles cover the faces *)
  x_cover : forall T q, In T mesh -> (forall T', In T' mesh -> side T' q <= 0) -> side T q == 0 -> on_mesh mesh q;
  (* the body is bounded along the axes *)
  x_ends : forall v, In v directions -> exists T T', In T mesh /\ In T' mesh /\ 0 < dot3 (t_n T) v /\ dot3 (t_n T') v < 0
}.
Lemma side_at T p v s : side T (at_ p v s) == side T p + s * dot3 (t_n T) v.
Proof. unfold side, dot3, sub3, at_. cbn [qx qy qz]. ring. Qed.
Lemma side_eq T p q : eq3 p q -> side T p == side T q.
Proof. intros (E1 & E2 & E3). unfold side, dot3, sub3. cbn [qx qy qz]. now rewrite E1, E2, E3. Qed.
Lemma dot3_sym p q : dot3 p q == dot3 q p.
Proof. unfold dot3. ring. Qed.
Lemma side_plane T q : normal_ok T -> on_tri T q -> side T q == 0.
Proof.
  intros (k & Hk & E1 & E2 & E3) (a & b & _ & _ & _ & F1 & F2 & F3). unfold side, dot3, sub3. cbn [qx qy qz]. rewrite E1, E2, E3, F1, F2, F3.
  unfold cross3, sub3. cbn [qx qy qz]. ring.
Qed.
(* leaving a convex body: the first face *)
Lemma exit p v l : (forall T, In T l -> side T p < 0) ->
  (forall T, In T l -> side T (at_ p v 1) < 0) \/
  exists t, 0 < t <= 1 /\ (exists T, In T l /\ side T (at_ p v t) == 0) /\ forall T, In T l -> side T (at_ p v t) <= 0.
Proof.
  induction l as [|T l IH]; intros H; [left; intros T []|].
  assert (HT : side T p < 0) by (apply H; now left). assert (Hl : forall T, In T l -> side T p < 0) by (intros T' H'; apply H; now right).
  specialize (IH Hl). set (m := dot3 (t_n T) v).
  assert (ET : forall t, side T (at_ p v t) == side T p + t * m) by (intros t; apply side_at).
  destruct (Qlt_le_dec (side T (at_ p v 1)) 0) as [C|C].
  - destruct IH as [IH|(t & Ht & (T1 & H1 & E1) & IH)].
    + left. intros T' [<-|H']; [exact C|now apply IH].
    + right. exists t. split; [exact Ht|]. split; [exists T1; split; [now right|exact E1]|]. intros T' [<-|H']; [|now apply IH].
      rewrite ET in *. nra.
  - rewrite ET in C. assert (Hm : 0 < m) by lra. set (tT := - side T p / m).
    assert (E1 : tT * m == - side T p) by (unfold tT; field; lra).
    assert (B1 : 0 < tT <= 1) by (split; [apply Qlt_shift_div_l; lra|apply Qle_shift_div_r; lra]).
    assert (Z : side T (at_ p v tT) == 0) by (rewrite ET, E1; ring).
    right. destruct IH as [IH|(t & Ht & (T1 & H1 & Z1) & IH)].
    + exists tT. split; [exact B1|]. split; [exists T; split; [now left|exact Z]|]. intros T' [<-|H']; [rewrite Z; apply Qle_refl|].
      specialize (IH T' H'). specialize (Hl T' H'). rewrite side_at in *. nra.
    + destruct (Qlt_le_dec tT t) as [L|L].
      * exists tT. split; [exact B1|]. split; [exists T; split; [now left|exact Z]|]. intros T' [<-|H']; [rewrite Z; apply Qle_refl|].
        specialize (IH T' H'). specialize (Hl T' H'). rewrite side_at in *. set (w := dot3 (t_n T') v) in *. 
        destruct (Qlt_le_dec w 0); nra.
      * exists t. split; [exact Ht|]. split; [exists T1; split; [now right|exact Z1]|]. intros T' [<-|H']; [|now apply IH].
        rewrite ET. nra.
Qed.
Lemma seg_rev p q t : eq3 (seg p q t) (seg q p (1 - t)).
Proof. unfold eq3, seg, at_, sub3. cbn [qx qy qz]. repeat split; ring. Qed.
Lemma seg_1 p q : eq3 (at_ p (sub3 q p) 1) q.
Proof. unfold eq3, at_, sub3. cbn [qx qy qz]. repeat split; ring. Qed.
Lemma inside_eq mesh p q : eq3 p q -> strictly_inside mesh p -> strictly_inside mesh q.
Proof. intros E H T HT. rewrite <- (side_eq T p q E). now apply H. Qed.
Lemma convex_exit mesh p v : convex mesh -> strictly_inside mesh p ->
  strictly_inside mesh (at_ p v 1) \/ exists t, 0 < t <= 1 /\ on_mesh mesh (at_ p v t).
Proof.
  intros HX H. destruct (exit p v mesh H) as [L|(t & Ht & (T & HT & Z) & L)]; [left; exact L|right].
  exists t. split; [exact Ht|]. now apply (x_cover _ HX T).
Qed.
Lemma convex_body mesh : convex mesh -> body mesh (strictly_inside mesh).
Proof.
  intros HX. split.
  - intros p q E. now apply inside_eq.
  - assert (G : forall p q, (forall t, 0 <= t <= 1 -> ~ on_mesh mesh (seg p q t)) -> strictly_inside mesh p -> strictly_inside mesh q).
    { intros p q N H. destruct (convex_exit mesh p (sub3 q p) HX H) as [L|(t & Ht & Ho)].
      - eapply inside_eq; [apply seg_1|exact L].
      - exfalso. apply (N t); [lra|exact Ho]. }
    intros p q N. split; [now apply G|]. apply G. intros t Ht Ho. apply (N (1 - t)); [lra|]. apply (on_mesh_eq mesh (seg q p t)); [|exact Ho]. apply seg_rev.
  - intros p v Hv. destruct (x_ends _ HX v Hv) as (T & _ & HT & _ & Hd & _). set (m := dot3 (t_n T) v) in *.
    exists (Qmax 0 (- side T p / m)). split; [apply Q.le_max_l|]. intros C. specialize (C T HT). rewrite side_at in C. fold m in C.
    assert (L : - side T p / m <= Qmax 0 (- side T p / m)) by apply Q.le_max_r. set (w := Qmax 0 _) in *. clearbody w.
    assert (E : - side T p / m * m == - side T p) by (field; lra). nra.
Qed.
Lemma convex_crosses mesh p v : convex mesh -> (exists s0, 0 <= s0 /\ strictly_inside mesh (at_ p v s0)) -> crosses mesh (strictly_inside mesh) p v.
Proof.
  intros HX (s0 & H0 & HI) T s HT Hs Ho. pose proof (x_normal _ HX) as HN. rewrite Forall_forall in HN.
  pose proof (side_plane T _ (HN T HT) Ho) as Z. pose proof (HI T HT) as N. rewrite side_at in Z, N. set (m := dot3 (t_n T) v) in *.
  assert (Hm : ~ m == 0) by (intros C; rewrite C in *; lra).
  split. { intros C. apply Hm. apply (normal_parallel v T (HN T HT)) in C. rewrite dot3_sym in C. exact C. }
  assert (EV : 0 < dot3 v (t_n T) <-> 0 < m) by (unfold m; now rewrite (dot3_sym v)).
  destruct (Qlt_le_dec 0 m) as [P|P].
  - assert (L : s0 < s) by nra. exists (s - s0). split; [lra|]. intros t Ht. split; [tauto|]. intros _ T' HT'.
    pose proof (HI T' HT') as N'. pose proof (x_inner _ HX T' T _ HT' HT Ho) as I'. rewrite side_at in *. set (w := dot3 (t_n T') v) in *.
    destruct (Qlt_le_dec w 0); nra.
  - assert (m < 0) by (apply Qle_lteq in P; destruct P; [assumption|exfalso; apply Hm; assumption]).
    exists 1. split; [lra|]. intros t Ht. split; [|rewrite EV; lra]. intros C. specialize (C T HT). rewrite side_at in C. fold m in C. nra.
Qed.
(* where no half line along an axis only touches the body *)
Definition grazing (mesh : list tri) (p : p3) : Prop :=
  exists v, In v directions /\ (exists s, 0 <= s /\ on_mesh mesh (at_ p v s)) /\ forall s, 0 <= s -> ~ strictly_inside mesh (at_ p v s).
Lemma inside_dec mesh p : {strictly_inside mesh p} + {~ strictly_inside mesh p}.
Proof.
  unfold strictly_inside. induction mesh as [|T l IH]; [left; intros T []|]. destruct (Qlt_le_dec (side T p) 0) as [C|C].
  - destruct IH as [IH|IH]; [left; intros T' [<-|H]; auto|right; intros H; apply IH; intros T' H'; apply H; now right].
  - right. intros H. specialize (H T (or_introl eq_refl)). lra.
Qed.
Lemma convex_inside mesh p : convex mesh -> ~ on_mesh mesh p ->
  (forall v, In v directions -> (exists s, 0 <= s /\ on_mesh mesh (at_ p v s)) -> exists s, 0 <= s /\ strictly_inside mesh (at_ p v s)) ->
  (point_inside mesh p = true <-> strictly_inside mesh p).
Proof.
  intros HX Hp HG. apply inside_body; auto; [now apply convex_body|now apply x_normal|].
  intros v Hv T s HT Hs Ho. destruct (HG v Hv) as (s0 & H0 & HI); [exists s; split; [exact Hs|now exists T]|].
  apply (convex_crosses mesh p v HX (ex_intro _ s0 (conj H0 HI)) T s HT Hs Ho).
Qed.
Lemma strictly_not_on mesh p : convex mesh -> strictly_inside mesh p -> ~ on_mesh mesh p.
Proof.
  intros HX H (T & HT & Ho). pose proof (x_normal _ HX) as HN. rewrite Forall_forall in HN. pose proof (side_plane T _ (HN T HT) Ho).
  specialize (H T HT). lra.
Qed.
Lemma at_0 p v : eq3 (at_ p v 0) p.
Proof. unfold eq3, at_. cbn [qx qy qz]. repeat split; ring. Qed.
Lemma convex_inside_in mesh p : convex mesh -> strictly_inside mesh p -> point_inside mesh p = true.
Proof.
  intros HX H. apply convex_inside; auto; [now apply strictly_not_on|]. intros v _ _. exists 0. split; [lra|].
  eapply inside_eq; [|exact H]. apply eq3_sym, at_0.
Qed.

(* ---- the box ---- *)
Lemma qmin_le l a : In a l -> qmin l <= a.
Proof.
  assert (G : forall r m, fold_left (fun m b => if Qltb b m then b else m) r m <= m /\ forall a, In a r -> fold_left (fun m b => if Qltb b m then b else m) r m <= a).
  { induction r as [|b r IH]; intros m; cbn [fold_left]; [split; [apply Qle_refl|intros a' []]|].
    destruct (IH (if Qltb b m then b else m)) as [G1 G2]. destruct (Qltb b m) eqn:E.
    - apply Qltb_true in E. split; [lra|]. intros a' [<-|H]; [exact G1|now apply G2].
    - apply Qltb_false in E. split; [exact G1|]. intros a' [<-|H]; [lra|now apply G2]. }
  destruct l as [|b l]; [intros []|]. cbn [qmin]. destruct (G l b) as [G1 G2]. intros [<-|H]; [exact G1|now apply G2].
Qed.
Lemma qmax_ge l a : In a l -> a <= qmax l.
Proof.
  assert (G : forall r m, m <= fold_left (fun m b => if Qltb m b then b else m) r m /\ forall a, In a r -> a <= fold_left (fun m b => if Qltb m b then b else m) r m).
  { induction r as [|b r IH]; intros m; cbn [fold_left]; [split; [apply Qle_refl|intros a' []]|].
    destruct (IH (if Qltb m b then b else m)) as [G1 G2]. destruct (Qltb m b) eqn:E.
    - apply Qltb_true in E. split; [lra|]. intros a' [<-|H]; [exact G1|now apply G2].
    - apply Qltb_false in E. split; [exact G1|]. intros a' [<-|H]; [lra|now apply G2]. }
  destruct l as [|b l]; [intros []|]. cbn [qmax]. destruct (G l b) as [G1 G2]. intros [<-|H]; [exact G1|now apply G2].
Qed.
Definition in_box (mesh : list tri) (q : p3) : Prop :=
  forall d, (d < 3)%nat -> nth d (fst (stl_bounds mesh)) 0 <= nth d (coordinates q) 0 <= nth d (snd (stl_bounds mesh)) 0.
Lemma on_mesh_box mesh q : on_mesh mesh q -> in_box mesh q.
Proof.
  intros (T & HT & a & b & Ha & Hb & Hab & E1 & E2 & E3).
  assert (V : forall (f : p3 -> Q) p, In p [t_a T; t_b T; t_c T] -> In (f p) (map f (vertices mesh))).
  { intros f p Hp. apply in_map. unfold vertices. apply in_flat_map. now exists T. }
  assert (G : forall (f : p3 -> Q) y, y == a * f (t_c T) + b * f (t_b T) + (1 - a - b) * f (t_a T) ->
    qmin (map f (vertices mesh)) <= y <= qmax (map f (vertices mesh))).
  { intros f y E. pose proof (V f (t_a T) (or_introl eq_refl)) as Va. pose proof (V f (t_b T) (or_intror (or_introl eq_refl))) as Vb.
    pose proof (V f (t_c T) (or_intror (or_intror (or_introl eq_refl)))) as Vc.
    pose proof (qmin_le _ _ Va). pose proof (qmin_le _ _ Vb). pose proof (qmin_le _ _ Vc). pose proof (qmax_ge _ _ Va). pose proof (qmax_ge _ _ Vb). pose proof (qmax_ge _ _ Vc).
    rewrite E. split; nra. }
  intros d Hd. unfold stl_bounds, coordinates. destruct d as [|[|[|d]]]; cbn [fst snd map nth]; [now apply G|now apply G|now apply G|lia].
Qed.
Lemma leaves mesh p v : convex mesh -> strictly_inside mesh p -> (exists T, In T mesh /\ 0 < dot3 (t_n T) v) -> exists s, 0 < s /\ on_mesh mesh (at_ p v s).
Proof.
  intros HX H (T & HT & Hd). set (m := dot3 (t_n T) v) in *. pose proof (H T HT) as N. set (w := - side T p / m).
  assert (Ew : w * m == - side T p) by (unfold w; field; lra). assert (Hw : 0 < w) by (apply Qlt_shift_div_l; lra).
  set (wv := P3 (w * qx v) (w * qy v) (w * qz v)).
  assert (E : forall t, eq3 (at_ p wv t) (at_ p v (t * w))) by (intros t; unfold eq3, at_, wv; cbn [qx qy qz]; repeat split; ring).
  destruct (convex_exit mesh p wv HX H) as [L|(t & Ht & Ho)].
  - exfalso. specialize (L T HT). rewrite (side_eq T _ _ (E 1)), side_at in L. fold m in L. lra.
  - exists (t * w). split; [nra|]. eapply on_mesh_eq; [apply E|exact Ho].
Qed.
Lemma convex_box mesh p : convex mesh -> strictly_inside mesh p -> in_box mesh p.
Proof.
  intros HX H.
  assert (G : forall v, In v directions -> exists s s', 0 < s /\ 0 < s' /\ in_box mesh (at_ p v s) /\ in_box mesh (at_ p v (- s'))).
  { intros v Hv. destruct (x_ends _ HX v Hv) as (T & T' & HT & HT' & H1 & H2).
    destruct (leaves mesh p v HX H (ex_intro _ T (conj HT H1))) as (s & Hs & Ho).
    destruct (leaves mesh p (P3 (- qx v) (- qy v) (- qz v)) HX H) as (s' & Hs' & Ho').
    { exists T'. split; [exact HT'|]. assert (E : dot3 (t_n T') (P3 (- qx v) (- qy v) (- qz v)) == - dot3 (t_n T') v) by (unfold dot3; cbn [qx qy qz]; ring). lra. }
    exists s, s'. split; [exact Hs|]. split; [exact Hs'|]. split; [now apply on_mesh_box|]. apply on_mesh_box. eapply on_mesh_eq; [|exact Ho'].
    unfold eq3, at_. cbn [qx qy qz]. repeat split; ring. }
  intros d Hd.
  assert (V : exists v, In v directions /\ nth d (coordinates v) 0 == 1).
  { destruct d as [|[|[|d]]]; [exists (P3 1 0 0)|exists (P3 0 1 0)|exists (P3 0 0 1)|lia]; (split; [cbn; auto|reflexivity]). }
  destruct V as (v & Hv & E). destruct (G v Hv) as (s & s' & Hs & Hs' & B1 & B2). specialize (B1 d Hd). specialize (B2 d Hd).
  assert (X : forall t, nth d (coordinates (at_ p v t)) 0 == nth d (coordinates p) 0 + t).
  { intros t. destruct d as [|[|[|d]]]; [| | |lia]; unfold coordinates, at_ in *; cbn [nth qx qy qz] in *; rewrite E; ring. }
  rewrite X in B1, B2. lra.
Qed.
