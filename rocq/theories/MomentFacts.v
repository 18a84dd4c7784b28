(** * MomentFacts: binomial sums and moments *)
From Coq Require Import List Arith Bool Lia Reals Lra ZArith.
From Verif Require Import Num Interval GaussInt Dist.
Import ListNotations.
Local Open Scope R_scope.

(** Sum of [f 0 .. f n]. *)
Fixpoint sumto (f : nat -> R) (n : nat) : R := match n with 0%nat => f 0%nat | S m => sumto f m + f (S m) end.

Lemma fold_left_sum {A} (f : A -> R) l : forall acc, fold_left (fun acc j => acc + f j) l acc = acc + Rsum (map f l).
Proof. induction l as [|a l IH]; intros acc; simpl; [lra|]. rewrite IH. lra. Qed.

Lemma sumto_seq f n : Rsum (map f (seq 0 (S n))) = sumto f n.
Proof.
  induction n as [|n IH]; [simpl; lra|].
  replace (seq 0 (S (S n))) with (seq 0 (S n) ++ [S n]) by (symmetry; apply (seq_S (S n) 0)).
  rewrite map_app, Rsum_app, IH. simpl. lra.
Qed.

Lemma sumto_S f n : sumto f (S n) = sumto f n + f (S n).
Proof. reflexivity. Qed.

Lemma sumto_ext f h n : (forall k, (k <= n)%nat -> f k = h k) -> sumto f n = sumto h n.
Proof. induction n; simpl; intros H; [apply H; lia|]. rewrite IHn, H; auto. Qed.

Lemma sumto_plus f h n : sumto (fun k => f k + h k) n = sumto f n + sumto h n.
Proof. induction n; simpl; [lra|]. rewrite IHn. lra. Qed.

Lemma sumto_scal c f n : sumto (fun k => c * f k) n = c * sumto f n.
Proof. induction n; simpl; [lra|]. rewrite IHn. lra. Qed.

Lemma sumto_shift f n : sumto f (S n) = f 0%nat + sumto (fun k => f (S k)) n.
Proof. induction n; [simpl; lra|]. change (sumto f (S (S n))) with (sumto f (S n) + f (S (S n))). rewrite IHn. simpl. lra. Qed.

Lemma comb_0 n : comb n 0 = 1%nat.
Proof. destruct n; reflexivity. Qed.

Lemma comb_S n k : comb (S n) (S k) = (comb n k + comb n (S k))%nat.
Proof. reflexivity. Qed.

Lemma comb_gt n : forall k, (n < k)%nat -> comb n k = 0%nat.
Proof. induction n; intros [|k] H; try lia; [reflexivity|]. rewrite comb_S, !IHn by lia. reflexivity. Qed.

Lemma comb_absorb n : forall k, (S k * comb (S n) (S k) = S n * comb n k)%nat.
Proof.
  induction n as [|n IH]; intros k.
  - destruct k; [reflexivity|]. rewrite (comb_gt 1 (S (S k))), (comb_gt 0 (S k)) by lia. lia.
  - rewrite comb_S. destruct k as [|k].
    + rewrite comb_0. pose proof (IH 0%nat) as H. rewrite comb_0 in H. lia.
    + pose proof (IH k). pose proof (IH (S k)). rewrite (comb_S n k) in *. lia.
Qed.

(** ** The binomial transform of a sequence *)
Definition binom (m : R) (n : nat) (a : nat -> R) : R := sumto (fun k => INR (comb n k) * m ^ (n - k) * a k) n.

Lemma binom_ext m n a b : (forall k, a k = b k) -> binom m n a = binom m n b.
Proof. intros H. apply sumto_ext. intros k _. now rewrite H. Qed.

Lemma binom_lin m n a b c d : binom m n (fun k => c * a k + d * b k) = c * binom m n a + d * binom m n b.
Proof.
  unfold binom. rewrite <- !sumto_scal, <- sumto_plus. apply sumto_ext. intros. ring.
Qed.

Lemma binom_S m n a : binom m (S n) a = m * binom m n a + binom m n (fun k => a (S k)).
Proof.
  unfold binom. rewrite sumto_shift.
  rewrite (sumto_ext _ (fun k => INR (comb n k) * m ^ (n - k) * a (S k) + INR (comb n (S k)) * m ^ (n - k) * a (S k))).
  2:{ intros k Hk. rewrite comb_S, plus_INR. replace (S n - S k)%nat with (n - k)%nat by lia. ring. }
  rewrite sumto_plus, <- sumto_scal.
  assert (E : INR (comb (S n) 0) * m ^ (S n - 0) * a 0%nat + sumto (fun k => INR (comb n (S k)) * m ^ (n - k) * a (S k)) n =
              sumto (fun k => m * (INR (comb n k) * m ^ (n - k) * a k)) n); [|lra].
  destruct n as [|n].
  - simpl. lra.
  - rewrite (sumto_shift (fun k => m * _)). rewrite !comb_0. rewrite (sumto_S (fun k => INR (comb (S n) (S k)) * _ * _)).
    rewrite (comb_gt (S n) (S (S n))) by lia. replace (S (S n) - 0)%nat with (S (S n)) by lia.
    replace (S n - 0)%nat with (S n) by lia. simpl (INR 0).
    rewrite (sumto_ext (fun k => INR (comb (S n) (S k)) * m ^ (S n - k) * a (S k))
               (fun k => m * (INR (comb (S n) (S k)) * m ^ (S n - S k) * a (S k)))).
    + simpl (m ^ S (S n)). simpl (m ^ S n). ring.
    + intros k Hk. replace (S n - k)%nat with (S (S n - S k)) by lia. simpl pow. ring.
Qed.

(** Transforming twice adds the shifts. *)
Lemma binom_binom m m' n : forall a, binom m n (fun i => binom m' i a) = binom (m + m') n a.
Proof.
  induction n as [|n IH]; intros a; [unfold binom; simpl; ring|]. rewrite !binom_S.
  rewrite (binom_ext m n (fun k => binom m' (S k) a) (fun k => m' * binom m' k a + 1 * binom m' k (fun j => a (S j)))).
  - rewrite binom_lin, !IH. ring.
  - intros k. rewrite binom_S. ring.
Qed.

(** ** Central moments of a normal distribution with mean 0: 0 for odd orders, (2j)!/(j! 2^j) sigma^(2j) for order 2j. *)
Fixpoint amom (sigma : R) (k : nat) : R :=
  match k with
  | 0%nat => 1
  | 1%nat => 0
  | S (S k') => INR (S k') * sigma ^ 2 * amom sigma k'
  end.

Lemma amom_SS sigma k : amom sigma (S (S k)) = INR (S k) * sigma ^ 2 * amom sigma k.
Proof. reflexivity. Qed.

Lemma amom_odd sigma j : amom sigma (2 * j + 1) = 0.
Proof.
  induction j as [|j IH]; [reflexivity|]. replace (2 * S j + 1)%nat with (S (S (2 * j + 1))) by lia. rewrite amom_SS, IH. ring.
Qed.

Lemma amom_even sigma j : amom sigma (2 * j) = sigma ^ (2 * j) * INR (fact (2 * j)) / (INR (fact j) * 2 ^ j).
Proof.
  induction j as [|j IH]; [simpl; field|].
  replace (2 * S j)%nat with (S (S (2 * j))) by lia. rewrite amom_SS, IH.
  assert (Hf : INR (fact j) <> 0) by apply INR_fact_neq_0. assert (H2 : 2 ^ j <> 0) by (apply pow_nonzero; lra).
  change (fact (S (S (2 * j)))) with (S (S (2 * j)) * (S (2 * j) * fact (2 * j)))%nat.
  change (fact (S j)) with (S j * fact j)%nat.
  rewrite !mult_INR, !(S_INR (S _)), !(S_INR j), !(S_INR (2 * j)), mult_INR.
  simpl (INR 2). change (2 ^ S j) with (2 * 2 ^ j). change (sigma ^ S (S (2 * j))) with (sigma * (sigma * sigma ^ (2 * j))).
  pose proof (pos_INR j). field. repeat split; auto. lra.
Qed.

(** Only even indices contribute. *)
Lemma sumto_even f n : (forall j, f (2 * j + 1)%nat = 0) -> sumto f n = sumto (fun j => f (2 * j)%nat) (n / 2).
Proof.
  intros Ho. assert (H : forall m, sumto f (2 * m) = sumto (fun j => f (2 * j)%nat) m /\
                                   sumto f (2 * m + 1) = sumto (fun j => f (2 * j)%nat) m).
  { induction m as [|m [IH1 IH2]].
    - split; [reflexivity|]. simpl. specialize (Ho 0%nat). simpl in Ho. rewrite Ho. lra.
    - replace (2 * S m)%nat with (S (2 * m + 1)) by lia.
      assert (E : sumto f (S (2 * m + 1)) = sumto (fun j => f (2 * j)%nat) (S m)).
      { cbn [sumto]. rewrite IH2. do 2 f_equal. lia. }
      split; [exact E|]. replace (S (2 * m + 1) + 1)%nat with (S (S (2 * m + 1))) by lia.
      change (sumto f (S (S (2 * m + 1)))) with (sumto f (S (2 * m + 1)) + f (S (S (2 * m + 1)))). rewrite E.
      replace (S (S (2 * m + 1))) with (2 * S m + 1)%nat by lia. rewrite Ho. lra. }
  destruct (Nat.Even_or_Odd n) as [[m ->]|[m ->]].
  - rewrite (proj1 (H m)). f_equal. rewrite Nat.mul_comm, Nat.div_mul; lia.
  - rewrite (proj2 (H m)). f_equal. rewrite Nat.mul_comm, Nat.div_add_l by lia. simpl. lia.
Qed.

Lemma raw_moment_binom mu sigma n : raw_moment mu sigma n = binom mu n (amom sigma).
Proof.
  unfold raw_moment, binom. rewrite fold_left_sum, Rplus_0_l, sumto_seq.
  rewrite (sumto_even (fun k => INR (comb n k) * mu ^ (n - k) * amom sigma k)).
  - apply sumto_ext. intros j Hj. rewrite amom_even.
    assert (INR (fact j) <> 0) by apply INR_fact_neq_0. assert (2 ^ j <> 0) by (apply pow_nonzero; lra).
    field; auto.
  - intros j. rewrite amom_odd. ring.
Qed.

Lemma gauss_moment_binom mu sigma n c : gauss_moment mu sigma n c = binom (mu - c) n (amom sigma).
Proof.
  unfold gauss_moment. rewrite fold_left_sum, Rplus_0_l, sumto_seq.
  replace (mu - c) with (- c + mu) by ring. rewrite <- binom_binom. unfold binom at 1.
  apply sumto_ext. intros i Hi. rewrite raw_moment_binom. ring.
Qed.

(** The three-term recurrence. *)
Lemma binom_shift_amom m sigma n :
  binom m (S n) (fun k => amom sigma (S k)) = INR (S n) * sigma ^ 2 * binom m n (amom sigma).
Proof.
  unfold binom. rewrite sumto_shift. simpl (amom sigma 1). rewrite Rmult_0_r, Rplus_0_l.
  rewrite <- sumto_scal. apply sumto_ext. intros k Hk. rewrite amom_SS.
  replace (S n - S k)%nat with (n - k)%nat by lia.
  assert (E : INR (comb (S n) (S k)) * INR (S k) = INR (S n) * INR (comb n k)).
  { rewrite <- !mult_INR. f_equal. rewrite <- comb_absorb. lia. }
  replace (INR (comb (S n) (S k)) * m ^ (n - k) * (INR (S k) * sigma ^ 2 * amom sigma k))
    with (INR (comb (S n) (S k)) * INR (S k) * (m ^ (n - k) * sigma ^ 2 * amom sigma k)) by ring.
  rewrite E. ring.
Qed.
