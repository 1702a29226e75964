(* Model of the symbols which are neither parameters of the dictionary nor conserved moments: the
   time, the time step and the extra parameters.  The expressions keep them until the kernels are
   called (pylbm/algorithm/base.py 121-149); a kernel gets their values as arguments at each call
   (base.py 630-681; which value, is the subject of C66).  simulation.py 106 and 419: the time. *)
From Verif Require Import PyBase LinAlg AlgoModel GlobalModel GenModel StepGenModel SchemeModel BuildModel.

Section Timed.
Variable K : ring.
(* The symbol c has the number n + c in the expressions of the algorithm (rename, BuildModel.v); its
   value is arg c.  The numbers below n are the moments. *)
Definition with_args (n : nat) (arg : nat -> K) : term K -> term K := tsubst K (fun i => if Nat.ltb i n then Var i else Num (arg (i - n)%nat)).
(* The algorithm during a call: the same statements, where the arguments have their values. *)
Definition called (arg : nat -> K) (a : salgo K) : salgo K :=
  let w := with_args (sa_n K a) arg in
  mkSalgo K (sa_n K a) (sa_nc K a) (sa_dim K a) (sa_M K a) (sa_invM K a) (sa_Tu K a) (fun k => w (sa_eq K a k)) (fun k => w (sa_s K a k))
    (option_map (fun rel j => w (rel j)) (sa_relvel K a)) (map (fun p => (fst p, w (snd p))) (sa_source K a)) (sa_hdt K a).

(* simulation.py 106: t = 0; 419: t += dt at the end of one_time_step *)
Fixpoint clock (dt : K) (i : nat) : K := match i with O => 0%K | S i => (clock dt i + dt)%K end.
(* base.py 630-667 during the step i: the symbol tn is the time, the others (dt, extra parameters)
   keep their values *)
Definition clock_args (dt : K) (tn : nat) (env : nat -> K) (i c : nat) : K := if Nat.eqb c tn then clock dt i else env c.
End Timed.
