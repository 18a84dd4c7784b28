(** * MaxLikelihood: relative frequencies maximise the likelihood *)
From Coq Require Import List Arith Bool Lia Reals Lra.
From Verif Require Import Num MultinomialFacts.
Import ListNotations.
Local Set Bullet Behavior "Strict Subproofs".
Local Open Scope R_scope.

Lemma Rprod_exp {A} (f : A -> R) l : (forall a, In a l -> 0 < f a) -> Rprod (map f l) = exp (Rsum (map (fun a => ln (f a)) l)).
Proof.
  induction l as [|a l IH]; intros H; cbn; [now rewrite exp_0|]. fold (Rprod (map f l)). fold (Rsum (map (fun a => ln (f a)) l)).
  rewrite IH by (intros; apply H; now right). rewrite exp_plus, exp_ln by (apply H; now left). reflexivity.
Qed.
Lemma Rprod_zero {A} (f : A -> R) l a : In a l -> f a = 0 -> Rprod (map f l) = 0.
Proof. induction l as [|b l IH]; [now intros []|]. intros [<-|Hi] E; cbn; fold (Rprod (map f l)); [rewrite E; ring|]. rewrite IH by assumption. ring. Qed.
Lemma ln_below x : 0 < x -> ln x <= x - 1.
Proof. intros H. pose proof (exp_ineq1_le (ln x)) as E. rewrite exp_ln in E by exact H. lra. Qed.
Lemma ln_below_strict x : 0 < x -> x <> 1 -> ln x < x - 1.
Proof.
  intros H N. assert (L : ln x <> 0) by (intros E; apply N; rewrite <- (exp_ln x H), E; apply exp_0).
  pose proof (exp_ineq1 (ln x) L) as E. rewrite exp_ln in E by exact H. lra.
Qed.
Lemma Rsum_lt {A} (f h : A -> R) l : (forall a, In a l -> f a <= h a) -> (exists a, In a l /\ f a < h a) -> Rsum (map f l) < Rsum (map h l).
Proof.
  intros H (a & Ha & Hl). induction l as [|b l IH]; [destruct Ha|]. cbn. fold (Rsum (map f l)). fold (Rsum (map h l)).
  pose proof (Rsum_le f h l ltac:(intros; apply H; now right)) as E. pose proof (H b (or_introl eq_refl)) as E1. destruct Ha as [->|Ha]; [lra|].
  assert (E2 : Rsum (map f l) < Rsum (map h l)) by (apply IH; [intros; apply H; now right|exact Ha]). lra.
Qed.

Section Frequencies.
Context {A : Type} (dec : forall a b : A, {a = b} + {a <> b}).
Variables (U rows : list A).
Hypothesis (HU : NoDup U) (HI : incl rows U).

Definition frequency (a : A) : R := INR (count_occ dec rows a) / INR (length rows).

Lemma sum_rows_gen (h : A -> R) l : incl l U -> Rsum (map h l) = Rsum (map (fun a => INR (count_occ dec l a) * h a) U).
Proof.
  induction l as [|b l IH]; intros Hl.
  - cbn. symmetry. apply Rsum_zero. intros. ring.
  - change (Rsum (map h (b :: l))) with (h b + Rsum (map h l)). rewrite IH by (intros x Hx; apply Hl; now right).
    assert (E : h b = Rsum (map (fun a => if dec b a then h a else 0) U)).
    { rewrite (Rsum_one (fun a => if dec b a then h a else 0) U b HU); [now destruct (dec b b)|apply Hl; now left|]. intros c _ N. destruct (dec b c); congruence. }
    rewrite E, <- Rsum_plus. apply Rsum_ext. intros a _. cbn [count_occ]. destruct (dec b a) as [->|N]; [rewrite S_INR|]; ring.
Qed.
Lemma sum_rows (h : A -> R) : Rsum (map h rows) = Rsum (map (fun a => INR (count_occ dec rows a) * h a) U).
Proof. now apply sum_rows_gen. Qed.

Hypothesis HN : rows <> [].
Lemma rows_pos : 0 < INR (length rows).
Proof. clear HU HI. apply lt_0_INR. destruct rows; [congruence|cbn; lia]. Qed.
Lemma frequency_pos a : In a rows -> 0 < frequency a.
Proof. intros H. unfold frequency. apply Rdiv_lt_0_compat; [|apply rows_pos]. apply lt_0_INR. now apply count_occ_In. Qed.
Lemma frequency_nonneg a : 0 <= frequency a.
Proof. unfold frequency. apply Rmult_le_pos; [apply pos_INR|]. left. apply Rinv_0_lt_compat, rows_pos. Qed.
Lemma frequency_off a : ~ In a rows -> frequency a = 0.
Proof. intros H. unfold frequency. rewrite (proj1 (count_occ_not_In dec rows a) H). cbn. unfold Rdiv. ring. Qed.
Lemma frequency_sum : Rsum (map frequency U) = 1.
Proof.
  pose proof (sum_rows (fun _ => 1)) as E. rewrite Rsum_const in E. unfold frequency. pose proof rows_pos as P.
  rewrite (Rsum_ext _ (fun a => / INR (length rows) * (INR (count_occ dec rows a) * 1))) by (intros; unfold Rdiv; ring). rewrite Rsum_scal, <- E. field. lra.
Qed.

Variable q : A -> R.
Hypothesis (Hq : forall a, In a U -> 0 <= q a) (Hs : Rsum (map q U) <= 1).

Lemma ratio_sum : Rsum (map (fun a => q a / frequency a - 1) rows) <= 0.
Proof.
  pose proof rows_pos as P.
  rewrite (Rsum_ext _ (fun a => q a / frequency a + -1)) by (intros; ring). rewrite Rsum_plus, Rsum_const, sum_rows.
  assert (E : Rsum (map (fun a => INR (count_occ dec rows a) * (q a / frequency a)) U) <= Rsum (map (fun a => INR (length rows) * q a) U)).
  { apply Rsum_le. intros a Ha. specialize (Hq a Ha). unfold frequency. destruct (in_dec dec a rows) as [Hi|Hi].
    - assert (0 < INR (count_occ dec rows a)) by (apply lt_0_INR; now apply count_occ_In). right. field. lra.
    - rewrite (proj1 (count_occ_not_In dec rows a) Hi). change (INR 0) with 0. rewrite Rmult_0_l. apply Rmult_le_pos; lra. }
  rewrite Rsum_scal in E. nra.
Qed.

(** Gibbs' inequality for samples. *)
Theorem frequencies_best : Rprod (map q rows) <= Rprod (map frequency rows).
Proof.
  destruct (Exists_dec (fun a => q a = 0) rows (fun a => Req_EM_T (q a) 0)) as [Z|Z].
  - apply Exists_exists in Z as (a & Ha & E). rewrite (Rprod_zero q rows a Ha E). apply Rprod_nonneg. apply Forall_map, Forall_forall. intros. apply frequency_nonneg.
  - assert (P : forall a, In a rows -> 0 < q a).
    { intros a Ha. destruct (Hq a (HI a Ha)) as [H|H]; [exact H|]. exfalso. apply Z, Exists_exists. eauto. }
    rewrite (Rprod_exp q), (Rprod_exp frequency) by auto using frequency_pos.
    assert (L : Rsum (map (fun a => ln (q a)) rows) <= Rsum (map (fun a => ln (frequency a)) rows)).
    { assert (E : Rsum (map (fun a => ln (q a)) rows) <= Rsum (map (fun a => ln (frequency a) + (q a / frequency a - 1)) rows)).
      { apply Rsum_le. intros a Ha. pose proof (P a Ha). pose proof (frequency_pos a Ha).
        pose proof (ln_below (q a / frequency a) ltac:(now apply Rdiv_lt_0_compat)) as B. unfold Rdiv in B at 1. rewrite ln_mult, ln_Rinv in B by (auto using Rinv_0_lt_compat). lra. }
      rewrite Rsum_plus in E. pose proof ratio_sum. lra. }
    destruct L as [L|L]; [left; now apply exp_increasing|right; now rewrite L].
Qed.

(** No other distribution does as well. *)
Theorem frequencies_unique : Rprod (map q rows) = Rprod (map frequency rows) -> forall a, In a U -> q a = frequency a.
Proof.
  intros E.
  assert (P : forall a, In a rows -> 0 < q a).
  { intros a Ha. destruct (Hq a (HI a Ha)) as [H|H]; [exact H|]. exfalso. symmetry in H. rewrite (Rprod_zero q rows a Ha H) in E.
    rewrite (Rprod_exp frequency) in E by auto using frequency_pos. pose proof (exp_pos (Rsum (map (fun a => ln (frequency a)) rows))). lra. }
  assert (O : forall a, In a rows -> q a = frequency a).
  { intros a Ha. destruct (Req_EM_T (q a) (frequency a)) as [H|H]; [exact H|]. exfalso.
    rewrite (Rprod_exp q), (Rprod_exp frequency) in E by auto using frequency_pos. apply exp_inv in E.
    assert (L : Rsum (map (fun a => ln (q a)) rows) < Rsum (map (fun a => ln (frequency a) + (q a / frequency a - 1)) rows)).
    { apply Rsum_lt.
      - intros b Hb. pose proof (P b Hb). pose proof (frequency_pos b Hb).
        pose proof (ln_below (q b / frequency b) ltac:(now apply Rdiv_lt_0_compat)) as B. unfold Rdiv in B at 1. rewrite ln_mult, ln_Rinv in B by (auto using Rinv_0_lt_compat). lra.
      - exists a. split; [exact Ha|]. pose proof (P a Ha). pose proof (frequency_pos a Ha) as F.
        assert (N : q a / frequency a <> 1) by (intros N; apply H; apply (Rmult_eq_reg_r (/ frequency a)); [|apply Rinv_neq_0_compat; lra]; fold (q a / frequency a); rewrite N; field; lra).
        pose proof (ln_below_strict (q a / frequency a) ltac:(now apply Rdiv_lt_0_compat) N) as B. unfold Rdiv in B at 1. rewrite ln_mult, ln_Rinv in B by (auto using Rinv_0_lt_compat). lra. }
    rewrite Rsum_plus in L. pose proof ratio_sum. lra. }
  assert (G : forall a, In a U -> frequency a <= q a).
  { intros a Ha. destruct (in_dec dec a rows) as [Hi|Hi]; [right; symmetry; auto|]. rewrite frequency_off by exact Hi. auto. }
  intros a Ha. destruct (Req_EM_T (q a) (frequency a)) as [H|H]; [exact H|]. exfalso.
  assert (HL : frequency a < q a) by (destruct (G a Ha) as [L|L]; [exact L|congruence]).
  pose proof (Rsum_lt frequency q U G (ex_intro _ a (conj Ha HL))). pose proof frequency_sum. lra.
Qed.
End Frequencies.
