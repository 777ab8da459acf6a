(** Model of /repo/scripts/experiment_exp_lipschitz.py. *)
From Coq Require Import Reals.
From mathcomp Require Import all_ssreflect all_algebra mxtens.
From Verif Require Import Rstruct Base Linalg Calc Prob M_Foster.

Set Implicit Arguments.
Unset Strict Implicit.
Unset Printing Implicit Defensive.
Import Order.TTheory GRing.Theory Num.Theory.
Local Open Scope ring_scope.

(** [integrand_mean], lines 25-29: |jacfwd(eval_fn)(t)| for the one coordinate of the default
    [get_approx()]. *)
Definition lip_speed (delta : R) (a b : 'cV[R]_1) (t : R) : R :=
  `|jacR (fun z => eval_parabola z delta a b) t 0 0|.

(** [trapz], lines 21 and 31-34: [jnp.trapz] over the [N + 1] nodes, for one key. *)
Definition lip_trapz (N : nat) (delta : R) (a b : 'cV[R]_1) : R :=
  let ls := linspace 0 delta N.+1 in
  trapz_x [seq (lip_speed delta a b t : R^o) | t <- ls] ls.

(** [exp_trapz], line 35, for one key; N = 100 in line 20. *)
Definition lip_value (g : prng) (N : nat) (delta : R) (k : key g) : R :=
  let: (a, b) := parabolas 1 k delta in exp (lip_trapz N delta a b).

(** [experiment], lines 17-36: the mean over the keys. *)
Definition lip_experiment (g : prng) (N : nat) (keys : seq (key g)) (delta : R) : R :=
  (\sum_(k <- keys) lip_value N delta k) / (size keys)%:R.

(** [theoretical_bound], lines 39-40.  [delta ** 0.5] is the square root. *)
Definition theoretical_bound (delta : R) : R :=
  let pi : R := 3.1415%Re in
  1 + (sqrt (3%:R / (2%:R * pi)) + sqrt (2%:R / pi)) * sqrt delta.
