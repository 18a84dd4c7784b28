(** * GammaFn: the library functions math.gamma and scipy.stats.gamma.cdf at half-integers

    TruncatedGaussianDistribution.moment (G.py:199-251) calls [math.gamma((k + 1) / 2)] and [gamma.cdf(y, (k + 1) / 2)] for natural
    numbers k.  They are defined here; GammaFacts.v proves that they are the gamma function and its regularised
    incomplete integral. *)
From Coquelicot Require Import Coquelicot.
From Coq Require Import List Arith Bool Lia Reals Lra.
Local Open Scope R_scope.
Local Set Bullet Behavior "Strict Subproofs".

(** [math.gamma((k + 1) / 2)]. *)
Fixpoint gamma_half (k : nat) : R :=
  match k with
  | 0%nat => sqrt PI
  | 1%nat => 1
  | S (S j) => (INR j + 1) / 2 * gamma_half j
  end.

(** [gamma.cdf(y, (k + 1) / 2)] for a real number [y], after the substitution t = w^2. *)
Definition gkern (k : nat) (w : R) : R := 2 * w ^ k * exp (- (w * w)).
Definition gamma_cdf (k : nat) (y : R) : R := if Rle_dec y 0 then 0 else RInt (gkern k) 0 (sqrt y) / gamma_half k.
