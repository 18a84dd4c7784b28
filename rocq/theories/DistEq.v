(** * DistEq: equality and hashing of distributions

    Models [__eq__] and [__hash__] of D.py:58-59, 257-263, 576-581, U.py:68-70, 133-134, G.py:100-101, 253-254 and
    [MultinomialDistribution.__eq__] M.py:95-104 (D.py, U.py, G.py, M.py as in Dist.v and Multinomial.v).

    Simplifications.  Equality of variables and of intervals is that of the random_events package: variables are equal if
    they have the same name (a number here), simple intervals if bounds and bound types agree.  The hash of a tuple is some
    function of the tuple, so two distributions are sure to have equal hashes if the hashed tuples are equal. *)
From Coq Require Import List Arith Bool ZArith Reals.
From Verif Require Import Num Interval Dist Multinomial.
Import ListNotations.
Local Open Scope R_scope.

(** [==] of floats: nan differs from everything. *)
Definition neqb (a b : num) : bool :=
  match a, b with
  | Fin x, Fin y => Reqb x y
  | PInf, PInf | NInf, NInf => true
  | _, _ => false
  end.

Definition sint_eqb (i j : sint) : bool :=
  neqb (lo i) (lo j) && neqb (hi i) (hi j) && Bool.eqb (lc i) (lc j) && Bool.eqb (rc i) (rc j).

(** [dict.__eq__]: as many entries, and every key of the one has the same value in the other.  The lookup does not ask
    [__missing__]. *)
Definition dict_eqb (p q : dict) : bool :=
  (List.length p =? List.length q)%nat &&
  forallb (fun kv => match find (fun kv' => Z.eqb (fst kv') (fst kv)) q with
                     | Some kv' => Reqb (snd kv) (snd kv') | None => false end) p.

Inductive class : Type := CUnif | CDirac | CGauss | CTGauss | CSym | CInt.

Definition class_of (d : dist) : class :=
  match d with
  | DUnif _ _ => CUnif | DDirac _ _ _ => CDirac | DGauss _ _ _ => CGauss | DTGauss _ _ _ _ => CTGauss
  | DSym _ _ => CSym | DInt _ _ => CInt
  end.

(** The only two related classes: TruncatedGaussianDistribution is a GaussianDistribution (G.py:132). *)
Definition subclass (c c' : class) : bool :=
  match c, c' with
  | CUnif, CUnif | CDirac, CDirac | CGauss, CGauss | CTGauss, CTGauss | CSym, CSym | CInt, CInt => true
  | CTGauss, CGauss => true
  | _, _ => false
  end.

Definition is_instance (d : dist) (c : class) : bool := subclass (class_of d) c.

(** [UnivariateDistribution.__eq__] (D.py:58-59). *)
Definition base_eq (a b : dist) : bool := (dvar a =? dvar b)%nat && is_instance b (class_of a).

(** [self.location == other.location and self.scale == other.scale]. *)
Definition same_gauss (mu sigma : R) (b : dist) : bool :=
  match b with
  | DGauss _ mu' sigma' | DTGauss _ _ mu' sigma' => Reqb mu mu' && Reqb sigma sigma'
  | _ => false
  end.

(** [a.__eq__(b)].  Uniform: U.py:68-70.  Dirac: D.py:576-578.  Gaussian: G.py:100-101.  Truncated: G.py:253-254, which calls
    the method of the Gaussian first.  Discrete: D.py:257-260. *)
Definition eq_method (a b : dist) : bool :=
  match a with
  | DUnif v i => match b with DUnif w j => sint_eqb i j && (v =? w)%nat | _ => false end
  | DDirac _ loc cap => is_instance b CDirac && base_eq a b &&
                        match b with DDirac _ loc' cap' => Reqb loc loc' && neqb cap cap' | _ => false end
  | DGauss _ mu sigma => base_eq a b && same_gauss mu sigma b
  | DTGauss _ i mu sigma => (base_eq a b && same_gauss mu sigma b) &&
                            match b with DTGauss _ j _ _ => sint_eqb i j | _ => false end
  | DSym _ p | DInt _ p => match b with
                           | DSym _ q | DInt _ q => dict_eqb p q && base_eq a b
                           | _ => false
                           end
  end.

(** [a == b].  Python asks the right operand first if its class is a proper subclass of the left operand's class that
    overrides the method; a Boolean answer is final. *)
Definition py_eq (a b : dist) : bool :=
  if subclass (class_of b) (class_of a) && negb (subclass (class_of a) (class_of b))
  then eq_method b a else eq_method a b.

(** The tuple that [__hash__] hashes: U.py:133-134, D.py:580-581, 262-263.  A class that defines [__eq__] and not [__hash__]
    is not hashable (TypeError): the Gaussians. *)
Inductive hashed : Type :=
| HUnif (v : nat) (i : sint)
| HDirac (v : nat) (loc : R) (cap : num)
| HDict (v : nat) (items : dict).

Definition hash_key (d : dist) : option hashed :=
  match d with
  | DUnif v i => Some (HUnif v i)
  | DDirac v loc cap => Some (HDirac v loc cap)
  | DGauss _ _ _ | DTGauss _ _ _ _ => None
  | DSym v p | DInt v p => Some (HDict v p)
  end.

(** [np.allclose] of two finite numbers with the default tolerances: [abs(a - b) <= 1e-8 + 1e-5 * abs(b)]; infinities are
    close to themselves, nan to nothing. *)
Definition rtol : R := / 100000.
Definition atol : R := / 100000000.
Definition close (a b : num) : bool :=
  match a, b with
  | Fin x, Fin y => Rleb (Rabs (x - y)) (atol + rtol * Rabs y)
  | PInf, PInf | NInf, NInf => true
  | _, _ => false
  end.

(** [MultinomialDistribution.__eq__] (M.py:95-104).  The shapes agree if the variables do. *)
Definition multi_eq (dom : nat -> list Z) (m m' : multi) : bool :=
  leqb (m_vars m) (m_vars m') && leqb (shape dom (m_vars m)) (shape dom (m_vars m')) &&
  forallb (fun s => close (m_at m s) (m_at m' s)) (states (shape dom (m_vars m))).
