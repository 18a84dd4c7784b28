(** * NygaGeometry: the intervals and the weights of the leaves *)
From Coq Require Import List Arith Bool Lia ZArith Reals Lra Permutation.
From Verif Require Import Num Graph GraphFacts Spec SpecFacts Circuit EvalFacts Interval Dist DistFacts Simplify TreeLocal Layout LayoutFacts Star Nyga NygaFacts.
Import ListNotations.
Local Set Bullet Behavior "Strict Subproofs".
Local Open Scope R_scope.

Section Geometry.
Variable xs : list R.
Hypothesis Hasc : ascending xs.
Hypothesis Hn : (2 <= length xs)%nat.
Let n := length xs.

Definition cut (i : nat) : R := if (i =? 0)%nat then nth 0 xs 0 else if (i <? length xs)%nat then (nth (i - 1) xs 0 + nth i xs 0) / 2 else nth (i - 1) xs 0.

Lemma left_cut b : (b < n)%nat -> left_connecting_point xs b = cut b.
Proof.
  intros H. unfold left_connecting_point, cut, at_index. destruct (Nat.eqb_spec b 0) as [->|N]; [reflexivity|].
  destruct (Nat.ltb_spec 0 b); [|lia]. destruct (Nat.ltb_spec b (length xs)); [reflexivity|unfold n in H; lia].
Qed.

Lemma right_cut e : (0 < e)%nat -> right_connecting_point xs e = cut e.
Proof.
  intros H. unfold right_connecting_point, cut, at_index. destruct (Nat.eqb_spec e 0) as [->|N]; [lia|].
  destruct (Nat.ltb_spec e (length xs)); [lra|reflexivity].
Qed.

Lemma xs_lt i j : (i < j)%nat -> (j < n)%nat -> nth i xs 0 < nth j xs 0.
Proof. now apply ascending_nth. Qed.
Lemma xs_le i j : (i <= j)%nat -> (j < n)%nat -> nth i xs 0 <= nth j xs 0.
Proof. intros H Hj. destruct (Nat.eq_dec i j) as [->|]; [lra|]. left. apply xs_lt; lia. Qed.

Lemma cut_before i : (i < n)%nat -> cut i <= nth i xs 0 /\ ((0 < i)%nat -> cut i < nth i xs 0).
Proof.
  intros H. unfold cut. destruct (Nat.eqb_spec i 0) as [->|N]; [split; [lra|lia]|]. destruct (Nat.ltb_spec i (length xs)); [|unfold n in H; lia].
  assert (X := xs_lt (i - 1) i ltac:(lia) H). split; [|intros _]; lra.
Qed.
Lemma cut_after i : (i < n)%nat -> nth i xs 0 <= cut (S i) /\ ((S i < n)%nat -> nth i xs 0 < cut (S i)).
Proof.
  intros H. unfold cut. cbn [Nat.eqb]. rewrite Nat.sub_succ, Nat.sub_0_r. destruct (Nat.ltb_spec (S i) (length xs)).
  - assert (X := xs_lt i (S i) ltac:(lia) H0). split; [|intros _]; lra.
  - split; [lra|]. unfold n. lia.
Qed.

Lemma cut_lt i j : (i < j)%nat -> (j <= n)%nat -> cut i < cut j.
Proof.
  intros H Hj. destruct (cut_before i ltac:(lia)) as [A A']. destruct (cut_after (j - 1) ltac:(lia)) as [B B'].
  replace (S (j - 1)) with j in * by lia. assert (X := xs_le i (j - 1) ltac:(lia) ltac:(lia)).
  destruct (Nat.eq_dec i 0) as [->|Ni]; [|specialize (A' ltac:(lia)); lra]. destruct (Nat.eq_dec j n) as [->|Nj]; [|specialize (B' ltac:(lia)); lra].
  assert (Y := xs_lt 0 (n - 1) ltac:(unfold n in *; lia) ltac:(unfold n in *; lia)). lra.
Qed.
Lemma cut_le i j : (i <= j)%nat -> (j <= n)%nat -> cut i <= cut j.
Proof. intros H Hj. destruct (Nat.eq_dec i j) as [->|]; [lra|]. left. apply cut_lt; lia. Qed.

Lemma leaf_interval_spec b e x : (b < e)%nat -> (e <= n)%nat ->
  in_sint (leaf_interval xs b e) x = true <-> cut b <= x /\ (x < cut e \/ e = n /\ x <= cut n).
Proof.
  intros H He. unfold leaf_interval. rewrite left_cut, right_cut by lia. fold n. destruct (Nat.eqb_spec e n) as [->|N]; unfold in_sint, above, below; cbn [lo hi lc rc iclosed iclosed_open]; rewrite andb_true_iff.
  - destruct (Rleb_spec (cut b) x), (Rleb_spec x (cut n)); intuition (try discriminate); lra.
  - destruct (Rleb_spec (cut b) x), (Rltb_spec x (cut e)); intuition (try discriminate); try lra.
Qed.

Lemma leaf_interval_ok b e : (b < e)%nat -> (e <= n)%nat -> exists l h c, l < h /\ leaf_interval xs b e = mkSint (Fin l) (Fin h) true c.
Proof.
  intros H He. exists (cut b), (cut e), (e =? n)%nat. split; [apply cut_lt; lia|]. unfold leaf_interval. rewrite left_cut, right_cut by lia. fold n. now destruct (e =? n)%nat.
Qed.

(** A data point is in the leaf of its segment and in no other. *)
Lemma point_in_leaf b e i : (b < e)%nat -> (e <= n)%nat -> (i < n)%nat -> in_sint (leaf_interval xs b e) (nth i xs 0) = true <-> (b <= i < e)%nat.
Proof.
  intros H He Hi. rewrite leaf_interval_spec by auto. split.
  - intros [H1 H2]. split.
    + destruct (Nat.le_gt_cases b i) as [|X]; [auto|]. exfalso. destruct (cut_after i Hi) as [A A']. specialize (A' ltac:(lia)). assert (B := cut_le (S i) b ltac:(lia) ltac:(lia)). lra.
    + destruct (Nat.lt_ge_cases i e) as [|X]; [auto|]. exfalso. destruct H2 as [H2|[-> _]]; [|lia]. destruct (cut_before i Hi) as [A _]. assert (B := cut_le e i ltac:(lia) ltac:(lia)). lra.
  - intros [H1 H2]. destruct (cut_before i Hi) as [A _]. destruct (cut_after i Hi) as [B B']. assert (X := cut_le b i H1 ltac:(lia)). assert (Y := cut_le (S i) e ltac:(lia) ltac:(lia)).
    split; [lra|]. destruct (Nat.eq_dec e n) as [->|N]; [right; split; [reflexivity|lra]|left]. specialize (B' ltac:(lia)). lra.
Qed.

Lemma leaves_cover a L x : chain a n L -> (a < n)%nat -> cut a <= x <= cut n -> exists b e, In (b, e) L /\ in_sint (leaf_interval xs b e) x = true.
Proof.
  revert a. induction L as [|[b e] L IH]; cbn [chain]; intros a C Ha Hx; [lia|]. destruct C as (-> & H & C). assert (He := chain_le _ _ _ C).
  destruct (Rlt_dec x (cut e)) as [X|X]; [exists a, e; split; [now left|]; apply leaf_interval_spec; auto; tauto|].
  destruct (Nat.eq_dec e n) as [->|N]; [exists a, n; split; [now left|]; apply leaf_interval_spec; auto; split; [tauto|]; right; split; [auto|tauto]|].
  destruct (IH e C ltac:(lia) ltac:(lra)) as (b' & e' & Hin & Hl). exists b', e'. split; [now right|exact Hl].
Qed.

Lemma leaves_within L b e x : chain 0 n L -> In (b, e) L -> in_sint (leaf_interval xs b e) x = true -> cut 0 <= x <= cut n.
Proof.
  intros C Hin Hx. apply (chain_bounds _ _ _ _ _ C) in Hin. apply leaf_interval_spec in Hx; [|lia|lia]. assert (A := cut_le 0 b ltac:(lia) ltac:(lia)). assert (B := cut_le e n ltac:(lia) ltac:(lia)). lra.
Qed.

Lemma leaves_apart L b e b' e' x : chain 0 n L -> In (b, e) L -> In (b', e') L -> in_sint (leaf_interval xs b e) x = true -> in_sint (leaf_interval xs b' e') x = true -> (b, e) = (b', e').
Proof.
  intros C H1 H2 X1 X2. destruct (Nat.eq_dec b b') as [Eb|Nb]; [destruct (Nat.eq_dec e e') as [Ee|Ne]; [congruence|]|].
  all: assert (A := chain_apart _ _ _ _ _ _ _ C H1 H2 ltac:(congruence)); apply (chain_bounds _ _ _ _ _ C) in H1, H2;
    apply leaf_interval_spec in X1; [|lia|lia]; apply leaf_interval_spec in X2; [|lia|lia];
    destruct A as [A|A]; [assert (B := cut_le e b' A ltac:(lia))|assert (B := cut_le e' b A ltac:(lia))]; destruct X1 as [X1 [Y1|[-> Y1]]], X2 as [X2 [Y2|[-> Y2]]]; try lia; lra.
Qed.

Lemma cut_first : cut 0 = nth 0 xs 0.
Proof. reflexivity. Qed.
Lemma cut_last : cut n = nth (n - 1) xs 0.
Proof. unfold cut. destruct (Nat.eqb_spec n 0); [unfold n in *; lia|]. unfold n. destruct (Nat.ltb_spec (length xs) (length xs)); [lia|reflexivity]. Qed.

(** The range of the leaves is the convex hull of the data. *)
Lemma hull x : cut 0 <= x <= cut n <-> exists a b, In a xs /\ In b xs /\ a <= x <= b.
Proof.
  rewrite cut_first, cut_last. split.
  - intros H. exists (nth 0 xs 0), (nth (n - 1) xs 0). split; [apply nth_In; unfold n in *; lia|]. split; [apply nth_In; unfold n in *; lia|exact H].
  - intros (a & b & Ha & Hb & Hx). apply (In_nth _ _ 0) in Ha, Hb. destruct Ha as (i & Hi & <-), Hb as (j & Hj & <-).
    assert (X := xs_le 0 i ltac:(lia) Hi). assert (Y := xs_le j (n - 1) ltac:(unfold n in *; lia) ltac:(unfold n in *; lia)). lra.
Qed.

(** ** Weights *)
Variable ws : list R.
Hypothesis Hws : length ws = length xs.

Lemma list_positions {A} (l : list A) d : l = map (fun i => nth i l d) (seq 0 (length l)).
Proof.
  induction l as [|a l IH]; [reflexivity|]. cbn [length seq map nth]. f_equal. rewrite <- seq_shift, map_map. exact IH.
Qed.

Lemma firstn_sum (l : list R) e : Rsum (firstn e l) = Rsum (map (fun i => if (i <? e)%nat then nth i l 0 else 0) (seq 0 (length l))).
Proof.
  revert e. induction l as [|a l IH]; intros [|e]; try reflexivity.
  - rewrite Rsum_zero; [reflexivity|]. intros i Hi. reflexivity.
  - cbn [firstn length seq map nth]. unfold Rsum in *. cbn [fold_right Nat.ltb Nat.leb]. f_equal. rewrite <- seq_shift, map_map. rewrite IH. f_equal.
Qed.

Lemma leaf_weight b e : (b < e)%nat -> (e <= n)%nat ->
  sum_weights ws b e = Rsum (map (fun xw => if in_sint (leaf_interval xs b e) (fst xw) then snd xw else 0) (combine xs ws)).
Proof.
  intros H He. unfold sum_weights, cumulative. rewrite !firstn_sum. rewrite (list_positions (combine xs ws) (0, 0)), map_map, combine_length, Hws, Nat.min_id.
  match goal with |- ?a - ?b = ?c => enough (c + b = a) by lra end. rewrite <- Rsum_plus. apply Rsum_ext. intros i Hi. apply in_seq in Hi.
  rewrite combine_nth by auto. cbn [fst snd]. assert (P := point_in_leaf b e i H He ltac:(unfold n; lia)).
  destruct (in_sint _ _); destruct (Nat.ltb_spec i b), (Nat.ltb_spec i e); try lra; exfalso; destruct P as [P1 P2]; try (specialize (P1 eq_refl); lia); specialize (P2 ltac:(lia)); discriminate.
Qed.

Lemma total_weight L : chain 0 n L -> cumulative ws (length ws) <> 0 -> Rsum (map (fun be => fst (leaf_of xs ws be)) L) = 1.
Proof.
  intros C N. unfold leaf_of. cbn [fst]. rewrite (Rsum_ext _ (fun be => / cumulative ws (length ws) * (cumulative ws (snd be) - cumulative ws (fst be)))) by (intros be _; unfold sum_weights, Rdiv; ring).
  rewrite Rsum_scal, (chain_sum (cumulative ws) 0 n L C). unfold n. rewrite <- Hws. unfold cumulative at 3. cbn [firstn]. unfold Rsum at 1. cbn [fold_right]. field. exact N.
Qed.

Lemma NoDup_map_inj {A B} (f : A -> B) l : (forall x y, In x l -> In y l -> f x = f y -> x = y) -> NoDup l -> NoDup (map f l).
Proof.
  intros H N. induction N as [|a l Na N IH]; cbn [map]; constructor; [|apply IH; intros; apply H; auto; now right].
  intros X. apply in_map_iff in X. destruct X as (y & E & Hy). apply Na. rewrite (H a y); [exact Hy|now left|now right|now symmetry].
Qed.

(** The distinct data points of a leaf. *)
Lemma leaf_points_count b e (data : list R) : (forall x, In x data <-> In x xs) -> (b < e)%nat -> (e <= n)%nat ->
  (e - b <= length (nodup Req_EM_T (filter (in_sint (leaf_interval xs b e)) data)))%nat.
Proof.
  intros Hd H He. rewrite <- (seq_length (e - b) b), <- (map_length (fun i => nth i xs 0)). apply NoDup_incl_length.
  - assert (N := ascending_NoDup _ Hasc).
    apply NoDup_map_inj; [|apply seq_NoDup]. intros i j Hi Hj E. apply in_seq in Hi, Hj. apply (proj1 (NoDup_nth xs 0) N); auto; unfold n in *; lia.
  - intros x Hx. apply in_map_iff in Hx. destruct Hx as (i & <- & Hi). apply in_seq in Hi. apply nodup_In, filter_In. split; [apply Hd, nth_In; unfold n in *; lia|]. apply point_in_leaf; auto; lia.
Qed.
End Geometry.
