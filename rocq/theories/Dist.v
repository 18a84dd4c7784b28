(** * Dist: univariate distributions

    Models src/probabilistic_model/distributions/{distributions,uniform,gaussian}.py (D.py, U.py, G.py below).

    Simplifications.  Numbers are idealised (Num.v).  A variable is a number [v] (its rank by name).  Elements of symbolic
    domains are represented by their integer hash, as the code itself does (D.py:246-249), and appear in query rows as
    that integer.  A probability dictionary (MissingDict, utils.py:37-43) is an association list in insertion order with
    distinct keys.  scipy's norm is the exact normal distribution (GaussInt.v). *)
From Coq Require Import List Arith Bool Lia Reals Lra ZArith.
From Verif Require Import Num Interval GaussInt GammaFn.
Import ListNotations.
Local Open Scope R_scope.

(** IEEE division; division by zero yields an infinity of the numerator's sign or NaN. *)
Definition ndiv (a b : num) : num :=
  match a, b with
  | NaN, _ | _, NaN => NaN
  | Fin x, Fin y => if Req_EM_T y 0 then nscale_inf x else Fin (x / y)
  | Fin _, _ => Fin 0
  | PInf, Fin y => if Rlt_dec y 0 then NInf else PInf
  | NInf, Fin y => if Rlt_dec y 0 then PInf else NInf
  | _, _ => NaN
  end.

(** [np.minimum(1, np.maximum(0, a))]. *)
Definition clip01 (a : num) : num :=
  match a with
  | NaN => NaN
  | NInf => Fin 0
  | PInf => Fin 1
  | Fin r => Fin (Rmin 1 (Rmax 0 r))
  end.

Definition nmin1 (a : num) : num :=
  match a with NaN => NaN | NInf => NInf | PInf => Fin 1 | Fin r => Fin (Rmin 1 r) end.

Definition dict := list (Z * R).

(** What an event assigns to one variable: an Interval (continuous and integer variables) or a Set (symbolic). *)
Inductive evset : Type :=
| EInt (A : interval)
| ESym (l : list Z).

(** [x in assignment]. *)
Definition in_evset (A : evset) (x : R) : bool :=
  match A with
  | EInt A => in_interval A x
  | ESym l => existsb (fun k => Reqb (IZR k) x) l
  end.

Inductive dist : Type :=
| DUnif (v : nat) (i : sint)                       (* UniformDistribution, U.py:8 *)
| DDirac (v : nat) (loc : R) (cap : num)           (* DiracDeltaDistribution, D.py:508 *)
| DGauss (v : nat) (mu sigma : R)                  (* GaussianDistribution, G.py:10 *)
| DTGauss (v : nat) (i : sint) (mu sigma : R)      (* TruncatedGaussianDistribution, G.py:132 *)
| DSym (v : nat) (p : dict)                        (* SymbolicDistribution, D.py:362 *)
| DInt (v : nat) (p : dict).                       (* IntegerDistribution, D.py:428 *)

Definition dvar (d : dist) : nat :=
  match d with
  | DUnif v _ | DDirac v _ _ | DGauss v _ _ | DTGauss v _ _ _ | DSym v _ | DInt v _ => v
  end.

(** [UnivariateDistribution.variables] (D.py:25-27). *)
Definition dist_vars (d : dist) : list nat := [dvar d].

(** MissingDict lookup (utils.py:37-43): the default of [float] is 0. *)
Definition dget (p : dict) (k : Z) : R :=
  match find (fun kv => Z.eqb (fst kv) k) p with Some kv => snd kv | None => 0 end.

(** Python's lookup in a dict subclass: the stored value, else what [__missing__] returns; [__missing__] may change the
    dictionary (defaultdict's own inserts the default). *)
Definition getitem (missing : dict -> Z -> R * dict) (p : dict) (k : Z) : R * dict :=
  match find (fun kv => Z.eqb (fst kv) k) p with Some kv => (snd kv, p) | None => missing p k end.

(** [MissingDict.__missing__] (utils.py:42-43) with [default_factory = float]. *)
Definition missing_dict_missing (p : dict) (k : Z) : R * dict := (0, p).

(** A sequence of lookups. *)
Fixpoint lookups (p : dict) (ks : list Z) : list R * dict :=
  match ks with
  | [] => ([], p)
  | k :: ks' => let (x, p1) := getitem missing_dict_missing p k in
                let (xs, p2) := lookups p1 ks' in (x :: xs, p2)
  end.

Definition keys (p : dict) : list Z := map fst p.
Definition vals (p : dict) : list R := map snd p.

(** scipy.stats.norm with a non-positive scale returns nan. *)
Definition gauss_logpdf (mu sigma x : R) : num :=
  if Rlt_dec 0 sigma then nlog (Fin (phi ((x - mu) / sigma) / sigma)) else NaN.

Definition gauss_cdf (mu sigma : R) (x : num) : num :=
  if Rlt_dec 0 sigma then
    match x with
    | NaN => NaN
    | Fin r => Fin (Phi (Fin ((r - mu) / sigma)))
    | y => Fin (Phi y)
    end
  else NaN.

(** [left_included_condition] on extended numbers (D.py:185-192). *)
Definition left_included (i : sint) (x : num) : bool :=
  match lo i, x with
  | Fin a, Fin b => if lc i then Rleb a b else Rltb a b
  | NInf, NInf => lc i
  | PInf, PInf => lc i
  | NInf, NaN | PInf, NaN | Fin _, NaN | NaN, _ => false
  | NInf, _ => true
  | _, PInf => true
  | _, _ => false
  end.

(** [TruncatedGaussianDistribution.normalizing_constant] (G.py:141-153). *)
Definition tg_const (i : sint) (mu sigma : R) : num := nsub (gauss_cdf mu sigma (hi i)) (gauss_cdf mu sigma (lo i)).

(** [log_likelihood] of one row.
    Uniform: D.py:209-214, U.py:18-19, 42-46.  Dirac: D.py:532-535.  Gaussian: G.py:37-38.  Truncated: D.py:209-214,
    G.py:159-160.  Discrete: D.py:265-270, a later key would overwrite an earlier one. *)
Definition ll1 (d : dist) (x : R) : num :=
  match d with
  | DUnif _ i => if in_sint i x then nopp (nlog (nsub (hi i) (lo i))) else NInf
  | DDirac _ loc cap => if Reqb x loc then nlog cap else NInf
  | DGauss _ mu sigma => gauss_logpdf mu sigma x
  | DTGauss _ i mu sigma => if in_sint i x then nsub (gauss_logpdf mu sigma x) (nlog (tg_const i mu sigma)) else NInf
  | DSym _ p | DInt _ p =>
      fold_left (fun acc kv => if Reqb x (IZR (fst kv)) then nlog (Fin (snd kv)) else acc) p NInf
  end.

(** The loop of [IntegerDistribution.cdf] (D.py:461-470) for a batch of points whose maximum is [mx]: keys are visited in
    insertion order and the loop stops at the first key above the maximum. *)
Fixpoint int_cdf_loop (mx : R) (p : dict) (x : R) (acc : R) : R :=
  match p with
  | [] => acc
  | (k, q) :: p' => if Rltb mx (IZR k) then acc
                    else int_cdf_loop mx p' x (if Rleb (IZR k) x then acc + q else acc)
  end.

(** The whole batch: [maximum_value = max(x)], which raises ValueError for an empty batch. *)
Definition int_cdf_batch (p : dict) (xs : list R) : option (list R) :=
  match xs with
  | [] => None
  | x :: l => Some (map (fun y => int_cdf_loop (fold_left Rmax l x) p y 0) xs)
  end.

(** [cdf] of one row.  U.py:21-24, D.py:537-540, G.py:40-41, G.py:162-169, D.py:461-470 (one row: the maximum is x).
    SymbolicDistribution has no cdf (probabilistic_model.py:96-108 raises). *)
Definition cdf1 (d : dist) (x : num) : option num :=
  match d with
  | DUnif _ i => Some (clip01 (ndiv (nsub x (lo i)) (nsub (hi i) (lo i))))
  | DDirac _ loc _ => Some (match x with
                            | Fin r => if Rleb loc r then Fin 1 else Fin 0
                            | PInf => Fin 1 | _ => Fin 0 end)
  | DGauss _ mu sigma => Some (gauss_cdf mu sigma x)
  | DTGauss _ i mu sigma =>
      Some (if left_included i x
            then nmin1 (ndiv (nsub (gauss_cdf mu sigma x) (gauss_cdf mu sigma (lo i))) (tg_const i mu sigma))
            else Fin 0)
  | DInt _ p => match x with Fin r => Some (Fin (int_cdf_loop r p r 0)) | _ => None end
  | DSym _ _ => None
  end.

Definition continuous_cdf (d : dist) (x : num) : num := match cdf1 d x with Some y => y | None => NaN end.

(** [ContinuousDistribution.probability_of_simple_event] (D.py:101-106) with [interval_as_array] (utils.py:26-34): the
    sum of cdf differences.  An interval without simple sets gives an array of shape (0,), whose column selection raises
    IndexError. *)
Definition continuous_prob (d : dist) (A : interval) : option num :=
  match A with
  | [] => None
  | _ => Some (nsum (map (fun i => nsub (continuous_cdf d (hi i)) (continuous_cdf d (lo i))) A))
  end.

(** [probability_of_simple_event], given the assignment of the distribution's variable.
    Dirac: D.py:550-552.  Symbolic: D.py:403-404.  Integer: D.py:472-480.
    Simplification: an assignment of the wrong kind (a Set for a continuous variable) raises. *)
Definition prob1 (d : dist) (A : evset) : option num :=
  match d, A with
  | DUnif _ _, EInt A | DGauss _ _ _, EInt A | DTGauss _ _ _ _, EInt A => continuous_prob d A
  | DDirac _ loc _, EInt A => Some (if in_interval A loc then Fin 1 else Fin 0)
  | DSym _ p, ESym l => Some (Fin (Rsum (map (dget p) l)))
  | DInt _ p, EInt A =>
      Some (Fin (fold_left (fun acc kv => if in_interval A (IZR (fst kv)) then acc + snd kv else acc) p 0))
  | _, _ => None
  end.

(** [univariate_support].  D.py:181-183, 546-548, G.py:33-35, D.py:398-401, 453-459.
    Simplification: the union of singletons in D.py:453-459 is listed in dictionary order. *)
Definition support1 (d : dist) : evset :=
  match d with
  | DUnif _ i | DTGauss _ i _ _ => EInt [i]
  | DDirac _ loc _ => EInt [isingleton loc]
  | DGauss _ _ _ => EInt [ireals]
  | DSym _ p => ESym (map fst (filter (fun kv => Rltb 0 (snd kv)) p))
  | DInt _ p => EInt (map (fun kv => isingleton (IZR (fst kv))) (filter (fun kv => Rltb 0 (snd kv)) p))
  end.

(** [max(self.probabilities.values())]; raises ValueError for an empty dictionary. *)
Definition dmax (p : dict) : option R :=
  match vals p with [] => None | x :: l => Some (fold_left Rmax l x) end.

(** [univariate_log_mode].  U.py:26-27, D.py:554-555, G.py:43-44, 171-182, D.py:369-377, 442-448.
    [eps] stands for one step of [nextafter]. *)
Definition mode1 (eps : R) (d : dist) : option (evset * num) :=
  match d with
  | DUnif _ i => Some (EInt [i], nopp (nlog (nsub (hi i) (lo i))))
  | DDirac _ loc cap => Some (EInt [isingleton loc], nlog cap)
  | DGauss _ mu sigma => Some (EInt [isingleton mu], gauss_logpdf mu sigma mu)
  | DTGauss _ i mu sigma =>
      let value :=
        if in_sint i mu then Some mu
        else if (match lo i with Fin a => Rltb mu a | PInf => true | _ => false end)
        then match lo i with Fin a => Some (if lc i then a else a + eps) | _ => None end
        else match hi i with Fin b => Some (if rc i then b else b - eps) | _ => None end in
      match value with
      | None => None
      | Some x => Some (EInt [isingleton x], nsub (gauss_logpdf mu sigma x) (nlog (tg_const i mu sigma)))
      end
  | DSym _ p => match dmax p with
                | None => None
                | Some m => Some (ESym (map fst (filter (fun kv => Reqb (snd kv) m) p)), nlog (Fin m))
                end
  | DInt _ p => match dmax p with
                | None => None
                | Some m => Some (EInt (map (fun kv => isingleton (IZR (fst kv))) (filter (fun kv => Reqb (snd kv) m) p)),
                                  nlog (Fin m))
                end
  end.

(** [DiscreteDistribution.normalize] (D.py:320-326). *)
Definition dnormalize (p : dict) : dict := map (fun kv => (fst kv, snd kv / Rsum (vals p))) p.

(** [log_conditional_of_composite_set]: DiscreteDistribution D.py:333-348 (used by IntegerDistribution) visits the
    dictionary; SymbolicDistribution D.py:379-393 visits the event and keeps positive entries only.
    Result: the conditional distribution (None if impossible) and the log probability. *)
Definition int_cond_dict (p : dict) (A : interval) : dict := filter (fun kv => in_interval A (IZR (fst kv))) p.
Definition sym_cond_dict (p : dict) (l : list Z) : dict :=
  map (fun k => (k, dget p k)) (filter (fun k => Rltb 0 (dget p k)) l).

Definition finish_discrete (mk : dict -> dist) (q : dict) : option dist * num :=
  if Reqb (Rsum (vals q)) 0 then (None, NInf) else (Some (mk (dnormalize q)), nlog (Fin (Rsum (vals q)))).

Definition discrete_cond (d : dist) (A : evset) : option (option dist * num) :=
  match d, A with
  | DSym v p, ESym l => Some (finish_discrete (DSym v) (sym_cond_dict p l))
  | DInt v p, EInt A => Some (finish_discrete (DInt v) (int_cond_dict p A))
  | _, _ => None
  end.

(** [log_conditional_from_singleton] (D.py:121-132). *)
Definition cond_singleton (d : dist) (x : R) : dist * num := (DDirac (dvar d) x (nexp (ll1 d x)), ll1 d x).

(** [log_conditional_from_simple_interval] (D.py:134-144) with the non-singleton cases U.py:29-31 and G.py:94-98 (also
    inherited by TruncatedGaussianDistribution).  A Dirac distribution has no non-singleton case (D.py:146-153 raises). *)
Definition cond_simple_interval (d : dist) (i : sint) : option (dist * num) :=
  if is_singleton i then
    match lo i with Fin x => Some (cond_singleton d x) | _ => None end
  else
    match d with
    | DUnif v _ => match continuous_prob d [i] with Some p => Some (DUnif v i, nlog p) | None => None end
    | DGauss v mu sigma | DTGauss v _ mu sigma =>
        Some (DTGauss v i mu sigma, nlog (nsub (continuous_cdf d (hi i)) (continuous_cdf d (lo i))))
    | _ => None
    end.

(** [self.distribution.univariate_support & event]. *)
Definition support_inter (d : dist) (A : interval) : interval :=
  match support1 d with EInt Sp => interval_inter Sp A | ESym _ => [] end.

(** [math.comb]. *)
Fixpoint comb (n k : nat) : nat :=
  match n, k with
  | _, 0%nat => 1%nat
  | 0%nat, S _ => 0%nat
  | S n', S k' => (comb n' k' + comb n' (S k'))%nat
  end.

(** [GaussianDistribution.raw_moment] (G.py:50-70). *)
Definition raw_moment (mu sigma : R) (n : nat) : R :=
  fold_left (fun acc j => acc + INR (comb n (2 * j)) * mu ^ (n - 2 * j) * sigma ^ (2 * j) * INR (fact (2 * j))
                                / (INR (fact j) * 2 ^ j)) (seq 0 (S (n / 2))) 0.

(** [GaussianDistribution.moment] (G.py:72-92). *)
Definition gauss_moment (mu sigma : R) (n : nat) (c : R) : R :=
  fold_left (fun acc i => acc + INR (comb n i) * raw_moment mu sigma i * (- c) ^ (n - i)) (seq 0 (S n)) 0.

(** [UniformDistribution.moment] (U.py:48-66) for finite bounds. *)
Definition unif_pdf (a b : R) : R := exp (- ln (b - a)).
Definition unif_moment (a b : R) (n : nat) (c : R) : R :=
  unif_pdf a b * (b - c) ^ (n + 1) / INR (n + 1) - unif_pdf a b * (a - c) ^ (n + 1) / INR (n + 1).

(** [DiracDeltaDistribution.moment] (D.py:563-574). *)
Definition dirac_moment (loc : R) (n : nat) (c : R) : R :=
  match n with 0%nat => 1 | 1%nat => loc - c | _ => 0 end.

(** [IntegerDistribution.moment] (D.py:486-490). *)
Definition int_moment (p : dict) (n : nat) (c : R) : R :=
  Rsum (map (fun kv => snd kv * (IZR (fst kv) - c) ^ n) p).

(** [transform_to_standard_normal] (G.py:272-278) of a bound.  A positive finite scale keeps infinite bounds. *)
Definition zscore (mu sigma : R) (x : num) : num := match x with Fin r => Fin ((r - mu) / sigma) | y => y end.

(** [np.sign]. *)
Definition np_sign (x : num) : R :=
  match x with
  | NInf => -1
  | PInf => 1
  | NaN => 0
  | Fin r => if Rlt_dec r 0 then -1 else if Rlt_dec 0 r then 1 else 0
  end.

(** [gamma.cdf(bound ** 2 / 2, (k + 1) / 2)]; the cdf of infinity is one. *)
Definition gamma_of_bound (k : nat) (z : num) : R := match z with Fin r => gamma_cdf k (r ^ 2 / 2) | _ => 1 end.

(** The loop of [TruncatedGaussianDistribution.moment] (G.py:232-247): its k-th summand.  The signs are selected for even
    [k] only. *)
Definition tg_summand (n : nat) (l u : num) (c : R) (k : nat) : R :=
  let multiplying_constant := INR (comb n k) * Rpower 2 (INR k / 2) * gamma_half k / sqrt PI in
  let bound_selection z := if Nat.even k then np_sign z else 1 in
  let gamma_term_lower := - (1 / 2) * gamma_of_bound k l * bound_selection l in
  let gamma_term_upper := 1 / 2 * gamma_of_bound k u * bound_selection u in
  multiplying_constant * (gamma_term_lower + gamma_term_upper) * (- c) ^ (n - k).

(** [TruncatedGaussianDistribution.moment] (G.py:199-251).  Not represented: a non-positive scale and a normalising constant
    that is zero (nan or inf in the code). *)
Definition tg_moment (i : sint) (mu sigma : R) (n : nat) (c : R) : option R :=
  match tg_const i mu sigma with
  | Fin z =>
      if Req_EM_T z 0 then None
      else Some (fold_left (fun acc k => acc + tg_summand n (zscore mu sigma (lo i)) (zscore mu sigma (hi i)) ((c - mu) / sigma) k)
                   (seq 0 (S n)) 0 * (sigma ^ n / z))
  | _ => None
  end.

(** [moment] of order [n] about [c].  Symbolic distributions raise NotImplementedError (probabilistic_model.py:208-224).
    Simplification: uniform distributions with an infinite bound (nan in the code) are not given a value here. *)
Definition moment1 (d : dist) (n : nat) (c : R) : option R :=
  match d with
  | DUnif _ i => match lo i, hi i with Fin a, Fin b => Some (unif_moment a b n c) | _, _ => None end
  | DDirac _ loc _ => Some (dirac_moment loc n c)
  | DGauss _ mu sigma => Some (gauss_moment mu sigma n c)
  | DTGauss _ i mu sigma => tg_moment i mu sigma n c
  | DInt _ p => Some (int_moment p n c)
  | DSym _ _ => None
  end.

(** [translate] by [t] (D.py:225-229, 496-500, 618-619, G.py:125-126).  TruncatedGaussianDistribution calls the methods
    of both its base classes (G.py:363-365): interval and location move.  Symbolic distributions inherit a method that
    raises NotImplementedError (probabilistic_model.py:264-273). *)
Definition dset (p : dict) (k : Z) (q : R) : dict :=
  (* dictionary assignment: an existing key keeps its place *)
  if existsb (fun kv => Z.eqb (fst kv) k) p
  then map (fun kv => if Z.eqb (fst kv) k then (fst kv, q) else kv) p
  else p ++ [(k, q)].

Definition dshift (f : Z -> Z) (p : dict) : dict := fold_left (fun acc kv => dset acc (f (fst kv)) (snd kv)) p [].

Definition shift_sint (t : R) (i : sint) : sint := mkSint (nadd (lo i) (Fin t)) (nadd (hi i) (Fin t)) (lc i) (rc i).
Definition scale_sint (s : R) (i : sint) : sint := mkSint (nmul (lo i) (Fin s)) (nmul (hi i) (Fin s)) (lc i) (rc i).

(** Integer variables are translated and scaled by integers ([Dict[Variable, int]]): [Int_part t]. *)
Definition translate1 (t : R) (d : dist) : option dist :=
  match d with
  | DUnif v i => Some (DUnif v (shift_sint t i))
  | DDirac v loc cap => Some (DDirac v (loc + t) cap)
  | DGauss v mu sigma => Some (DGauss v (mu + t) sigma)
  | DTGauss v i mu sigma => Some (DTGauss v (shift_sint t i) (mu + t) sigma)
  | DInt v p => Some (DInt v (dshift (fun k => (k + Int_part t)%Z) p))
  | DSym _ _ => None
  end.

(** [scale] by [s] (D.py:231-235, 502-506, 621-622 adds instead of multiplying).  For Gaussians the attribute [scale]
    set in the constructor (G.py:30) hides the method (G.py:128-130): calling a float raises TypeError.  For symbolic
    distributions the inherited body is [...] (probabilistic_model.py:275-284): nothing happens. *)
Definition scale1 (s : R) (d : dist) : option dist :=
  match d with
  | DUnif v i => Some (DUnif v (scale_sint s i))
  | DDirac v loc cap => Some (DDirac v (loc + s) cap)
  | DGauss _ _ _ | DTGauss _ _ _ _ => None
  | DInt v p => Some (DInt v (dshift (fun k => (k * Int_part s)%Z) p))
  | DSym v p => Some (DSym v p)
  end.

(** [UnivariateDistribution.marginal] (D.py:52-56). *)
Definition marginal1 (vs : list nat) (d : dist) : option dist :=
  if existsb (Nat.eqb (dvar d)) vs then Some d else None.

(** [DiscreteDistribution.fit] (D.py:272-287): [np.unique] with counts, relative frequencies keyed by [hash(value)].
    CPython hashes an integer to its residue modulo the prime 2^61 - 1 with the sign kept, and never to -1: hash(-1) is -2.
    [SymbolicDistribution.fit] (D.py:418-425) is the same with the hash [h] of the set element. *)
Definition pyhash (k : Z) : Z :=
  let r := (Z.sgn k * (Z.abs k mod (2 ^ 61 - 1)))%Z in if Z.eqb r (-1) then (-2)%Z else r.

Fixpoint zinsert (x : Z) (l : list Z) : list Z :=
  match l with
  | [] => [x]
  | y :: l' => match Z.compare x y with Lt => x :: l | Eq => l | Gt => y :: zinsert x l' end
  end.
Definition np_unique (data : list Z) : list Z := fold_right zinsert [] data.
Definition count (x : Z) (data : list Z) : nat := length (filter (Z.eqb x) data).
Definition dfit (h : Z -> Z) (data : list Z) : dict :=
  fold_left (fun acc x => dset acc (h x) (INR (count x data) / INR (length data))) (np_unique data) [].

(** What a leaf contributes to circuit queries. *)
Definition dist_ll (d : dist) (row : list R) : num := match row with [x] => ll1 d x | _ => NaN end.
Definition dist_cdf (d : dist) (row : list R) : option num := match row with [x] => cdf1 d (Fin x) | _ => None end.

(** A simple event after [fill_missing_variables] assigns a set to every variable. *)
Definition sevent := nat -> evset.
Definition dist_prob (e : sevent) (d : dist) : option num := prob1 d (e (dvar d)).
