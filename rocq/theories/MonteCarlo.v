(** * MonteCarlo: distances estimated from samples

    Source: /repo/src/probabilistic_model/monte_carlo_estimator.py (MC.py) and
    /repo/src/probabilistic_model/probabilistic_circuit/nx/probabilistic_circuit.py (PC.py).

    Simplifications: the samples that the models draw are given; a model is known by its likelihoods, which raise (None) or
    answer a number for every sample.  Numbers are idealised floats; the mean of no samples is nan. *)
From Coq Require Import List Arith Bool Reals.
From Verif Require Import Num Interval Graph Circuit Dist.
Import ListNotations.
Local Open Scope R_scope.

Section MonteCarlo.
Variable X : Type.

(** [diff > tolerance] of numpy: comparisons with nan are false. *)
Definition ngtb (a b : num) : bool :=
  match a, b with
  | NaN, _ | _, NaN => false
  | Fin x, Fin y => Rltb y x
  | PInf, PInf => false
  | PInf, _ => true
  | Fin _, NInf => true
  | _, _ => false
  end.

(** [.mean()] of an array of numbers and of an array of truth values. *)
Definition nmean (l : list num) : num := match l with [] => NaN | _ => ndiv (nsum l) (Fin (INR (length l))) end.
Definition bmean (l : list bool) : num := nmean (map (fun b : bool => Fin (if b then 1 else 0)) l).

(** The share of samples that are more likely in the first model (MC.py:68-71, 73-76). *)
Definition share (p q : X -> option num) (tolerance : R) (samples : list X) : option num :=
  match mapM p samples, mapM q samples with
  | Some l_p, Some l_q => Some (bmean (map (fun ab => ngtb (nsub (fst ab) (snd ab)) (Fin tolerance)) (combine l_p l_q)))
  | _, _ => None
  end.

(** [l1_metric] (MC.py:58-77). *)
Definition l1_metric (p q : X -> option num) (tolerance : R) (samples_p samples_q : list X) : option num :=
  match share p q tolerance samples_p with
  | None => None
  | Some a => match share p q tolerance samples_q with None => None | Some b => Some (nmul (Fin 2) (nsub a b)) end
  end.

(** [abs] of a number. *)
Definition nabs (a : num) : num := match a with NaN => NaN | NInf | PInf => PInf | Fin x => Fin (Rabs x) end.

(** [l1_metric_but_with_uniform_measure] (MC.py:41-56) from the samples of the uniform model and its likelihood. *)
Definition l1_uniform (p q uniform : X -> option num) (samples : list X) : option num :=
  match samples with
  | [] => None
  | x :: _ =>
      match uniform x, mapM p samples, mapM q samples with
      | Some density, Some p_self, Some p_other =>
          Some (ndiv (nmean (map (fun ab => nabs (nsub (fst ab) (snd ab))) (combine p_self p_other))) density)
      | _, _, _ => None
      end
  end.

(** [ShallowProbabilisticCircuit.l1] (PC.py:1426-1438) from the event of higher density: [probability] of both models. *)
Definition l1_of_event {E : Type} (probability_self probability_other : E -> option num) (e : E) : option num :=
  match probability_self e, probability_other e with
  | Some p_e, Some q_e => Some (nmul (Fin 2) (nsub p_e q_e))
  | _, _ => None
  end.
End MonteCarlo.
