(** * Num: idealised floating point numbers

    Models the values that Python floats / numpy arrays of floats take in /repo.
    Simplification: no rounding, overflow or underflow; [Fin r] ranges over all real
    numbers.  The special values are kept because the code branches on [-np.inf] and stores it in
    ["log_weight"] (src/probabilistic_model/probabilistic_circuit/nx/probabilistic_circuit.py:567,867,910). *)
From Coq Require Import Reals Lra List Bool.
Import ListNotations.
Local Open Scope R_scope.

Inductive num : Type :=
| NaN : num
| NInf : num
| Fin (r : R) : num
| PInf : num.

(** IEEE addition [a + b]. *)
Definition nadd (a b : num) : num :=
  match a, b with
  | NaN, _ => NaN
  | _, NaN => NaN
  | NInf, PInf => NaN
  | PInf, NInf => NaN
  | NInf, _ => NInf
  | _, NInf => NInf
  | PInf, _ => PInf
  | _, PInf => PInf
  | Fin x, Fin y => Fin (x + y)
  end.

Definition nopp (a : num) : num :=
  match a with NaN => NaN | NInf => PInf | PInf => NInf | Fin x => Fin (- x) end.

Definition nsub (a b : num) : num := nadd a (nopp b).

(** Sign-aware product of a finite number with plus infinity. *)
Definition nscale_inf (x : R) : num :=
  match total_order_T x 0 with
  | inleft (left _) => NInf
  | inleft (right _) => NaN
  | inright _ => PInf
  end.

(** IEEE multiplication [a * b]; zero times infinity is NaN. *)
Definition nmul (a b : num) : num :=
  match a, b with
  | NaN, _ => NaN
  | _, NaN => NaN
  | Fin x, Fin y => Fin (x * y)
  | Fin x, PInf => nscale_inf x
  | PInf, Fin x => nscale_inf x
  | Fin x, NInf => nscale_inf (- x)
  | NInf, Fin x => nscale_inf (- x)
  | PInf, PInf => PInf
  | NInf, NInf => PInf
  | PInf, NInf => NInf
  | NInf, PInf => NInf
  end.

(** [np.exp]. *)
Definition nexp (a : num) : num :=
  match a with
  | NaN => NaN
  | NInf => Fin 0
  | Fin x => Fin (exp x)
  | PInf => PInf
  end.

(** [np.log]: [log 0 = -inf] (numpy only warns), negative arguments give NaN. *)
Definition nlog (a : num) : num :=
  match a with
  | NaN => NaN
  | NInf => NaN
  | Fin x => match total_order_T x 0 with
             | inleft (left _) => NaN
             | inleft (right _) => NInf
             | inright _ => Fin (ln x)
             end
  | PInf => PInf
  end.

(** [np.sum] over a list. *)
Definition nsum (l : list num) : num := fold_right nadd (Fin 0) l.

(** [math.prod] over a list. *)
Definition nprod (l : list num) : num := fold_right nmul (Fin 1) l.

(** [scipy.special.logsumexp] of a non-empty list.  scipy shifts by the maximum for numerical reasons;
    without rounding this is the plain formula, and scipy returns -inf when all entries are -inf. *)
Definition logsumexp (l : list num) : num := nlog (nsum (map nexp l)).

(** [x == -np.inf]. *)
Definition is_ninf (a : num) : bool := match a with NInf => true | _ => false end.

(** Values a density or a probability can take: everything that is not negative. *)
Definition nonneg (a : num) : Prop :=
  match a with NaN => True | NInf => False | Fin x => 0 <= x | PInf => True end.

(** ** Algebra *)

Lemma nadd_comm a b : nadd a b = nadd b a.
Proof. destruct a, b; simpl; try reflexivity. now rewrite Rplus_comm. Qed.

Lemma nadd_0_l a : nadd (Fin 0) a = a.
Proof. destruct a; simpl; try reflexivity. now rewrite Rplus_0_l. Qed.

Lemma nadd_0_r a : nadd a (Fin 0) = a.
Proof. rewrite nadd_comm. apply nadd_0_l. Qed.

Lemma nadd_assoc a b c : nadd a (nadd b c) = nadd (nadd a b) c.
Proof. destruct a, b, c; simpl; try reflexivity. now rewrite Rplus_assoc. Qed.

Lemma nmul_comm a b : nmul a b = nmul b a.
Proof. destruct a, b; simpl; try reflexivity. now rewrite Rmult_comm. Qed.

Lemma nmul_1_l a : nmul (Fin 1) a = a.
Proof.
  destruct a; simpl; try reflexivity; unfold nscale_inf.
  - destruct (total_order_T (-(1)) 0) as [[?|?]|?]; auto; lra.
  - now rewrite Rmult_1_l.
  - destruct (total_order_T 1 0) as [[?|?]|?]; auto; lra.
Qed.

Lemma nmul_1_r a : nmul a (Fin 1) = a.
Proof. rewrite nmul_comm. apply nmul_1_l. Qed.

Ltac tot :=
  repeat match goal with
  | |- context [total_order_T ?x ?y] => destruct (total_order_T x y) as [[?|?]|?]
  | H : context [total_order_T ?x ?y] |- _ => destruct (total_order_T x y) as [[?|?]|?]
  end.

Lemma nmul_assoc a b c : nonneg a -> nonneg b -> nonneg c ->
  nmul a (nmul b c) = nmul (nmul a b) c.
Proof.
  destruct a as [| |x|], b as [| |y|], c as [| |z|]; simpl; intros Ha Hb Hc; try tauto;
    unfold nscale_inf; tot; simpl; unfold nscale_inf; tot; try reflexivity; try (f_equal; ring); try nra; try lra.
  all: exfalso; nra.
Qed.


(** ** exp and log *)

Lemma nexp_nonneg a : nonneg (nexp a).
Proof. destruct a; simpl; auto; try lra. left; apply exp_pos. Qed.

Lemma nonneg_add a b : nonneg a -> nonneg b -> nonneg (nadd a b).
Proof. destruct a, b; simpl; auto; try tauto. intros; lra. Qed.

Lemma nonneg_mul a b : nonneg a -> nonneg b -> nonneg (nmul a b).
Proof.
  destruct a, b; simpl; auto; try tauto; unfold nscale_inf; intros; tot; simpl; auto; try lra.
  now apply Rmult_le_pos.
Qed.

Lemma nonneg_sum l : Forall nonneg l -> nonneg (nsum l).
Proof.
  induction 1; simpl; [lra|]. now apply nonneg_add.
Qed.

Lemma nonneg_prod l : Forall nonneg l -> nonneg (nprod l).
Proof.
  induction 1; simpl; [lra|]. now apply nonneg_mul.
Qed.

Lemma nexp_nlog a : nonneg a -> nexp (nlog a) = a.
Proof.
  destruct a as [| |x|]; simpl; auto; [tauto|].
  intros. tot; simpl; try lra.
  - now subst.
  - now rewrite exp_ln.
Qed.

Lemma nlog_nexp a : nlog (nexp a) = a.
Proof.
  destruct a as [| |x|]; simpl; auto.
  - tot; auto; lra.
  - pose proof (exp_pos x). tot; simpl; try lra. now rewrite ln_exp.
Qed.

Lemma nexp_add a b : nexp (nadd a b) = nmul (nexp a) (nexp b).
Proof.
  destruct a as [| |x|], b as [| |y|]; simpl; auto; unfold nscale_inf; try reflexivity;
    try pose proof (exp_pos x); try pose proof (exp_pos y); tot; auto; try lra; try (f_equal; ring).
  now rewrite exp_plus.
Qed.

Lemma nlog_mul a b : nonneg a -> nonneg b -> nlog (nmul a b) = nadd (nlog a) (nlog b).
Proof.
  intros Ha Hb.
  rewrite <- (nexp_nlog a Ha) at 1. rewrite <- (nexp_nlog b Hb) at 1.
  now rewrite <- nexp_add, nlog_nexp.
Qed.

Lemma nlog_inj a b : nonneg a -> nonneg b -> nlog a = nlog b -> a = b.
Proof. intros Ha Hb H. rewrite <- (nexp_nlog a Ha), <- (nexp_nlog b Hb). now rewrite H. Qed.

Lemma nexp_inj a b : nexp a = nexp b -> a = b.
Proof. intros H. now rewrite <- (nlog_nexp a), <- (nlog_nexp b), H. Qed.

Lemma nexp_logsumexp l : nexp (logsumexp l) = nsum (map nexp l).
Proof.
  unfold logsumexp. apply nexp_nlog, nonneg_sum.
  apply Forall_forall. intros x Hx. apply in_map_iff in Hx. destruct Hx as [y [<- _]]. apply nexp_nonneg.
Qed.

Lemma nsum_app l1 l2 : nsum (l1 ++ l2) = nadd (nsum l1) (nsum l2).
Proof.
  induction l1 as [|a l1 IH]; [symmetry; apply nadd_0_l|].
  change (nadd a (nsum (l1 ++ l2)) = nadd (nadd a (nsum l1)) (nsum l2)). now rewrite IH, nadd_assoc.
Qed.

Lemma nexp_nsum l : nexp (nsum l) = nprod (map nexp l).
Proof.
  induction l; simpl; [now rewrite exp_0|]. now rewrite nexp_add, IHl.
Qed.

(** ** Finite parts *)

Definition nfin (a : num) : Prop := match a with Fin _ => True | _ => False end.
Definition toR (a : num) : R := match a with Fin x => x | _ => 0 end.

Lemma nfin_toR a : nfin a -> a = Fin (toR a).
Proof. destruct a; simpl; tauto. Qed.

Definition Rsum (l : list R) : R := fold_right Rplus 0 l.
Definition Rprod (l : list R) : R := fold_right Rmult 1 l.

Lemma nsum_Fin l : nsum (map Fin l) = Fin (Rsum l).
Proof. induction l; simpl; [reflexivity|]. now rewrite IHl. Qed.

Lemma nprod_Fin l : nprod (map Fin l) = Fin (Rprod l).
Proof. induction l; simpl; [reflexivity|]. now rewrite IHl. Qed.

Lemma Rsum_app l1 l2 : Rsum (l1 ++ l2) = Rsum l1 + Rsum l2.
Proof. induction l1; simpl; [lra|]. rewrite IHl1. lra. Qed.

Lemma Rprod_app l1 l2 : Rprod (l1 ++ l2) = Rprod l1 * Rprod l2.
Proof. induction l1; simpl; [lra|]. rewrite IHl1. ring. Qed.

Lemma Rsum_nonneg l : Forall (fun x => 0 <= x) l -> 0 <= Rsum l.
Proof. induction 1; simpl; lra. Qed.

Lemma Rprod_nonneg l : Forall (fun x => 0 <= x) l -> 0 <= Rprod l.
Proof. induction 1; simpl; [lra|]. now apply Rmult_le_pos. Qed.

Lemma Rsum_scal {A} (f : A -> R) c l : Rsum (map (fun x => c * f x) l) = c * Rsum (map f l).
Proof. induction l; simpl; [ring|]. rewrite IHl. ring. Qed.

Lemma Rsum_plus {A} (f g : A -> R) l : Rsum (map (fun x => f x + g x) l) = Rsum (map f l) + Rsum (map g l).
Proof. induction l; simpl; [ring|]. rewrite IHl. ring. Qed.

Lemma Rsum_le {A} (f g : A -> R) l : (forall x, In x l -> f x <= g x) -> Rsum (map f l) <= Rsum (map g l).
Proof.
  induction l; simpl; intros H; [lra|].
  pose proof (H a (or_introl eq_refl)). assert (Rsum (map f l) <= Rsum (map g l)) by (apply IHl; auto). lra.
Qed.

Lemma Rsum_ext {A} (f g : A -> R) l : (forall x, In x l -> f x = g x) -> Rsum (map f l) = Rsum (map g l).
Proof.
  induction l; simpl; intros H; [reflexivity|]. rewrite (H a), IHl; auto.
Qed.

Lemma Rsum_zero {A} (f : A -> R) l : (forall x, In x l -> f x = 0) -> Rsum (map f l) = 0.
Proof. induction l; simpl; intros H; [reflexivity|]. rewrite (H a), IHl; auto. lra. Qed.

Lemma Rsum_const {A} c (l : list A) : Rsum (map (fun _ => c) l) = INR (length l) * c.
Proof. induction l; simpl length; simpl map; simpl Rsum; [simpl; ring|]. rewrite IHl, S_INR. ring. Qed.

Lemma Rsum_nonneg_zero l : Forall (fun x => 0 <= x) l -> Rsum l = 0 -> Forall (fun x => x = 0) l.
Proof.
  induction 1; simpl; intros; constructor.
  - pose proof (Rsum_nonneg _ H0). lra.
  - apply IHForall. pose proof (Rsum_nonneg _ H0). lra.
Qed.

Lemma Rsum_swap {A B} (f : A -> B -> R) la lb :
  Rsum (map (fun a => Rsum (map (f a) lb)) la) = Rsum (map (fun b => Rsum (map (fun a => f a b) la)) lb).
Proof.
  induction la; simpl.
  - symmetry. apply Rsum_zero. reflexivity.
  - rewrite IHla, <- Rsum_plus. reflexivity.
Qed.

Lemma Rprod_ext {A} (f g : A -> R) l : (forall x, In x l -> f x = g x) -> Rprod (map f l) = Rprod (map g l).
Proof.
  induction l; simpl; intros H; [reflexivity|]. rewrite (H a), IHl; auto.
Qed.
