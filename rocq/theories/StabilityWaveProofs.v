(* Plane waves on the periodic domain and runs of the linearised scheme. *)
From Verif Require Import PyBase VelocityModel GridModel StorageModel ExchangeProofs LinAlg AlgoModel AlgoProofs RelVelProofs KernelProofs GlobalModel GlobalProofs TorusProofs GlobalProps StabilitySchemeModel StabilitySchemeProofs.
Open Scope Z_scope.

Section Wave.
Variable K : ring.
Add Ring Kring_wave : (rth K).
Open Scope ring_scope'.

Fixpoint npow (w : K) (n : nat) : K := match n with O => 1%K | S n => (w * npow w n)%K end.
(* integer powers of an invertible w with inverse wi *)
Definition zpow (w wi : K) (z : Z) : K :=
  match z with Z0 => 1%K | Zpos p => npow w (Pos.to_nat p) | Zneg p => npow wi (Pos.to_nat p) end.
Lemma zpow_succ w wi z : (w * wi = 1)%K -> zpow w wi (z + 1) = (w * zpow w wi z)%K.
Proof.
  intros H. destruct z as [|p|p].
  - reflexivity.
  - change (Z.pos p + 1)%Z with (Z.pos (p + 1)). cbn [zpow]. replace (Pos.to_nat (p + 1)) with (S (Pos.to_nat p)) by lia. reflexivity.
  - destruct (Pos.eq_dec p 1) as [->|N].
    + change (zpow w wi (-1 + 1)) with (1%K : K). change (zpow w wi (-1)) with (wi * 1)%K. replace (w * (wi * 1))%K with (w * wi)%K by ring. symmetry. exact H.
    + assert (E : (Z.neg p + 1)%Z = Z.neg (Pos.pred p)) by lia. rewrite E. cbn [zpow].
      replace (Pos.to_nat p) with (S (Pos.to_nat (Pos.pred p))) by lia. cbn [npow].
      replace (w * (wi * npow wi (Pos.to_nat (Pos.pred p))))%K with ((w * wi) * npow wi (Pos.to_nat (Pos.pred p)))%K by ring.
      rewrite H. ring.
Qed.
Lemma zpow_pred w wi z : (w * wi = 1)%K -> zpow w wi (z - 1) = (wi * zpow w wi z)%K.
Proof.
  intros H. replace z with ((z - 1) + 1)%Z at 2 by lia. rewrite zpow_succ by exact H.
  replace (wi * (w * zpow w wi (z - 1)))%K with ((w * wi) * zpow w wi (z - 1))%K by ring. rewrite H. ring.
Qed.
Lemma zpow_add w wi x y : (w * wi = 1)%K -> zpow w wi (x + y) = (zpow w wi x * zpow w wi y)%K.
Proof.
  intros H. revert x. apply Z.peano_ind.
  - change (zpow w wi 0) with (1%K : K). rewrite Z.add_0_l. ring.
  - intros x IH. replace (Z.succ x + y)%Z with ((x + y) + 1)%Z by lia. unfold Z.succ. rewrite !zpow_succ, IH by exact H. ring.
  - intros x IH. replace (Z.pred x + y)%Z with ((x + y) - 1)%Z by lia. replace (Z.pred x) with (x - 1)%Z by lia.
    rewrite !zpow_pred, IH by exact H. ring.
Qed.
Lemma zpow_mul w wi N k : (w * wi = 1)%K -> zpow w wi N = 1%K -> zpow w wi (N * k) = 1%K.
Proof.
  intros H HN. revert k. apply Z.peano_ind.
  - rewrite Z.mul_0_r. reflexivity.
  - intros k IH. replace (N * Z.succ k)%Z with (N * k + N)%Z by lia. rewrite zpow_add, IH, HN by exact H. ring.
  - intros k IH. assert (E : zpow w wi (N * k) = (zpow w wi (N * Z.pred k) * zpow w wi N)%K).
    { rewrite <- zpow_add by exact H. f_equal. lia. }
    rewrite IH, HN in E. rewrite E. ring.
Qed.
Lemma zpow_mod w wi N z : (w * wi = 1)%K -> zpow w wi N = 1%K -> N <> 0%Z -> zpow w wi (z mod N) = zpow w wi z.
Proof.
  intros H HN N0. rewrite (Z.div_mod z N N0) at 2. rewrite zpow_add, zpow_mul by assumption. ring.
Qed.

(* ws: for each direction exp(i xi_d) and its inverse; wave ws g = exp(i xi . g) *)
Fixpoint wave (ws : list (K * K)) (g : list Z) : K :=
  match ws, g with
  | (w, wi) :: ws, z :: g => (zpow w wi z * wave ws g)%K
  | _, _ => 1%K
  end.
(* the wave is periodic on the domain *)
Definition wave_ok (axes : list axis) (ws : list (K * K)) : Prop :=
  Forall2 (fun x p => (fst p * snd p = 1)%K /\ zpow (fst p) (snd p) (ax_n x) = 1%K) axes ws.

Lemma wave_shift axes ws : wave_ok axes ws -> Forall (fun x => (0 < ax_n x)%Z) axes ->
  forall g v, length g = length axes -> length v = length axes ->
  wave ws (map2 Z.modulo (map2 Z.sub g v) (map ax_n axes)) = (wave ws g * wave ws (map Z.opp v))%K.
Proof.
  induction 1 as [|x [w wi] axes ws [H1 H2] _ IH]; intros HP g v Lg Lv.
  - destruct g; [|discriminate]. destruct v; [|discriminate]. cbn. ring.
  - destruct g as [|z g]; [discriminate|]. destruct v as [|y v]; [discriminate|]. cbn in Lg, Lv, H1, H2.
    inversion HP as [|x' l' P1 P2 E]; subst. unfold map2 in *. cbn.
    rewrite IH by (assumption || lia). rewrite zpow_mod by (assumption || lia).
    replace (z - y)%Z with (z + - y)%Z by lia. rewrite zpow_add by exact H1. ring.
Qed.

(* A wave of amplitude fh around the state f0. *)
Definition disturbed (ws : list (K * K)) (f0 fh : vec K) (g : list Z) : vec (dual K) := fun k => (f0 k, (wave ws g * fh k)%K).

Lemma gstep_wave axes vel n (L : vec (dual K) -> vec (dual K)) (R : mat K) ws f0 fh :
  wave_ok axes ws -> Forall (fun x => (0 < ax_n x)%Z) axes ->
  (forall k, (k < n)%nat -> length (vel k) = length axes) ->
  (forall f, (forall k, (k < n)%nat -> re K (f k) = f0 k) -> forall k, (k < n)%nat ->
     re K (L f k) = f0 k /\ im K (L f k) = mvmul n R (fun j => im K (f j)) k) ->
  forall g, length g = length axes -> agree (dual K) n (gstep (dual K) axes vel L (disturbed ws f0 fh) g)
    (disturbed ws f0 (mvmul n (amplification (fun k => wave ws (map Z.opp (vel k))) R) fh) g).
Proof.
  intros Hw HP Hlen HL g Lg k Hk. unfold gstep.
  destruct (HL (fun k0 => disturbed ws f0 fh (wrap axes (shift_cell vel k0 g)) k0) (fun _ _ => eq_refl) k Hk) as [H1 H2].
  apply dual_eq; [exact H1|]. rewrite H2. cbn [disturbed im snd].
  unfold mvmul. rewrite <- sum_mul_l. apply sum_ext. intros j Hj. unfold wrap, shift_cell.
  rewrite (wave_shift axes ws Hw HP g (vel j) Lg (Hlen j Hj)). unfold amplification. ring.
Qed.

Lemma grun_wave axes vel n (L : vec (dual K) -> vec (dual K)) (R : mat K) ws f0 fh :
  wave_ok axes ws -> Forall (fun x => (0 < ax_n x)%Z) axes ->
  (forall k, (k < n)%nat -> length (vel k) = length axes) ->
  (forall f f', agree (dual K) n f f' -> agree (dual K) n (L f) (L f')) ->
  (forall f, (forall k, (k < n)%nat -> re K (f k) = f0 k) -> forall k, (k < n)%nat ->
     re K (L f k) = f0 k /\ im K (L f k) = mvmul n R (fun j => im K (f j)) k) ->
  forall t g, length g = length axes ->
  agree (dual K) n (iter t (gstep (dual K) axes vel L) (disturbed ws f0 fh) g)
    (disturbed ws f0 (iter t (mvmul n (amplification (fun k => wave ws (map Z.opp (vel k))) R)) fh) g).
Proof.
  intros Hw HP Hlen HA HL. induction t as [|t IH]; intros g Lg; [intros k _; reflexivity|]. cbn [iter].
  refine (agree_trans (dual K) n _ _ _ _ (gstep_wave axes vel n L R ws f0 _ Hw HP Hlen HL g Lg)).
  unfold gstep. apply HA. intros k Hk. apply IH; [|exact Hk].
  unfold wrap, shift_cell. rewrite !map2_length; rewrite ?map_length; try rewrite map2_length; try rewrite (Hlen k Hk); congruence.
Qed.
End Wave.
