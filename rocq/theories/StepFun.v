(** * StepFun: a step function on boxes that is nowhere negative has a non-negative integral *)
From Coq Require Import List Arith Bool Lia Reals Lra.
From Verif Require Import Num Interval.
Import ListNotations.
Local Set Bullet Behavior "Strict Subproofs".
Local Open Scope R_scope.

(** A term of a step function: a height and a box, one interval for each variable. *)
Definition term : Type := R * (nat -> interval).

Definition at_point (vs : list nat) (x : nat -> R) (T : term) : R := fst T * Rprod (map (fun v => ind (in_interval (snd T v) (x v))) vs).
Definition over (F : num -> R) (vs : list nat) (T : term) : R := fst T * Rprod (map (fun v => measure F (snd T v)) vs).

Lemma line_positive {A} F (f : A -> R) (I : A -> interval) l : mono F -> (forall a, In a l -> interval_ok (I a)) ->
  (forall y, 0 <= Rsum (map (fun a => f a * ind (in_interval (I a) y)) l)) -> 0 <= Rsum (map (fun a => f a * measure F (I a)) l).
Proof.
  intros HF Ok Pos. set (cuts := concat (map (fun a => cuts_of (I a)) l)).
  assert (E : Rsum (map (fun a => f a * measure F (I a)) l) = Rsum (map (fun p => dlt F p * Rsum (map (fun a => f a * ind (in_interval (I a) (between p))) l)) (cells NInf (cut_list cuts)))).
  { transitivity (Rsum (map (fun a => Rsum (map (fun p => dlt F p * (f a * ind (in_interval (I a) (between p)))) (cells NInf (cut_list cuts)))) l)).
    - apply Rsum_ext. intros a Ha. rewrite (measure_by_points F (I a) cuts); [|auto|intros z Hz; apply in_concat; exists (cuts_of (I a)); split; [now apply (in_map (fun a => cuts_of (I a)))|exact Hz]].
      rewrite <- Rsum_scal. apply Rsum_ext. intros p _. ring.
    - rewrite Rsum_swap. apply Rsum_ext. intros p _. now rewrite Rsum_scal. }
  rewrite E. apply Rsum_nonneg. apply Forall_map, Forall_forall. intros p Hp. apply Rmult_le_pos; [|apply Pos]. unfold dlt.
  pose proof (HF _ _ (chain_cells_lt _ _ (cut_list_chain cuts) p Hp)). lra.
Qed.

(** Fubini's argument, one variable at a time. *)
Theorem step_positive F vs : forall l : list term, mono F -> NoDup vs -> (forall T v, In T l -> In v vs -> interval_ok (snd T v)) ->
  (forall x, 0 <= Rsum (map (at_point vs x) l)) -> 0 <= Rsum (map (over F vs) l).
Proof.
  induction vs as [|v vs IH]; intros l HF Nd Ok Pos.
  - exact (Pos (fun _ => 0)).
  - inversion Nd as [|? ? Hv Nd']; subst.
    assert (E : Rsum (map (over F (v :: vs)) l) = Rsum (map (fun T => over F vs T * measure F (snd T v)) l)).
    { apply Rsum_ext. intros T _. unfold over. cbn [map]. change (Rprod (?a :: ?b)) with (a * Rprod b). ring. }
    rewrite E. apply line_positive; [exact HF|intros T HT; apply Ok; cbn; auto|]. intros y.
    specialize (IH (map (fun T : term => (fst T * ind (in_interval (snd T v) y), snd T)) l) HF Nd').
    assert (Q : Rsum (map (fun T => over F vs T * ind (in_interval (snd T v) y)) l) = Rsum (map (over F vs) (map (fun T : term => (fst T * ind (in_interval (snd T v) y), snd T)) l))).
    { rewrite map_map. apply Rsum_ext. intros T _. unfold over. cbn [fst snd]. ring. }
    rewrite Q. apply IH.
    + intros T w HT Hw. apply in_map_iff in HT as (T' & <- & HT). cbn [snd]. apply Ok; cbn; auto.
    + intros x. specialize (Pos (fun w => if (w =? v)%nat then y else x w)).
      replace (Rsum (map (at_point vs x) _)) with (Rsum (map (at_point (v :: vs) (fun w => if (w =? v)%nat then y else x w)) l)); [exact Pos|].
      rewrite map_map. apply Rsum_ext. intros T _. unfold at_point. cbn [map fst snd]. rewrite Nat.eqb_refl. change (Rprod (?a :: ?b)) with (a * Rprod b). rewrite Rmult_assoc. do 2 f_equal.
      apply Rprod_ext. intros w Hw. destruct (Nat.eqb_spec w v) as [->|]; [contradiction|reflexivity].
Qed.
