(** * Property C88: Nyga distributions are split by likelihood *)
From Coq Require Import List Arith Bool Lia Reals Lra Permutation.
From Verif Require Import Num Graph GraphFacts Spec SpecFacts Circuit EvalFacts Interval Dist DistFacts Simplify ModeFacts TreeLocal Layout LayoutFacts Star Nyga NygaFacts NygaGeometry PropertiesNyga.
Import ListNotations.
Local Open Scope R_scope.
Local Set Bullet Behavior "Strict Subproofs".

(** ** Specification *)

(** The density of a uniform leaf. *)
Definition pdf (i : sint) (x : R) : R := wexp (ll1 (DUnif 0 i) x).

Section Split.
Variable xs : list R.   (* the distinct values in ascending order *)
Variable ws : list R.   (* their weights *)

(** The weight of the values from [b] to [e] (excluded). *)
Definition mass (b e : nat) : R := Rsum (map (fun i => nth i ws 0) (seq b (e - b))).

(** The density of the part of the model that belongs to these values: one leaf, or two leaves that share its weight. *)
Definition one_leaf (b e : nat) (x : R) : R := pdf (leaf_interval xs b e) x.
Definition two_leaves (b s e : nat) (x : R) : R :=
  mass b s / mass b e * pdf (leaf_interval xs b s) x + mass s e / mass b e * pdf (leaf_interval xs s e) x.

(** The likelihood of these values. *)
Definition likelihood (f : R -> R) (b e : nat) : R := Rprod (map (fun i => f (nth i xs 0)) (seq b (e - b))).
Definition ratio (b s e : nat) : R := likelihood (two_leaves b s e) b e / likelihood (one_leaf b e) b e.

(** ** Sums over ranges *)

Lemma nlog_pos x : 0 < x -> nlog (Fin x) = Fin (ln x).
Proof. intros H. cbn. destruct (total_order_T x 0) as [[X|X]|X]; try lra. reflexivity. Qed.

Definition range (f : nat -> R) (b e : nat) : R := Rsum (map f (seq b (e - b))).

Lemma Rsum_cons x l : Rsum (x :: l) = x + Rsum l.
Proof. reflexivity. Qed.

Lemma Rsum_app a b : Rsum (a ++ b) = Rsum a + Rsum b.
Proof. unfold Rsum. induction a as [|x a IH]; cbn; [lra|]. rewrite IH. lra. Qed.

Lemma range_split f b s e : (b <= s)%nat -> (s <= e)%nat -> range f b e = range f b s + range f s e.
Proof.
  intros H1 H2. unfold range. replace (e - b)%nat with ((s - b) + (e - s))%nat by lia. rewrite seq_app, map_app, Rsum_app. do 4 f_equal. lia.
Qed.

Lemma range_ext f g b e : (forall i, (b <= i < e)%nat -> f i = g i) -> range f b e = range g b e.
Proof. intros H. unfold range. f_equal. apply map_ext_in. intros i Hi. apply in_seq in Hi. apply H. lia. Qed.

Lemma range_const c b e : range (fun _ => c) b e = INR (e - b) * c.
Proof.
  unfold range. generalize (e - b)%nat. intros n. revert b. induction n as [|n IH]; intros b'; [unfold Rsum; cbn; lra|]. rewrite S_INR. cbn [seq map]. change (c + Rsum (map (fun _ => c) (seq (S b') n)) = (INR n + 1) * c). rewrite IH. lra.
Qed.

Lemma range_plus f g b e : range (fun i => f i + g i) b e = range f b e + range g b e.
Proof.
  unfold range. generalize (e - b)%nat. intros n. revert b. induction n as [|n IH]; intros b'; [unfold Rsum; cbn; lra|]. cbn [seq map].
  change (f b' + g b' + Rsum (map (fun i => f i + g i) (seq (S b') n)) = f b' + Rsum (map f (seq (S b') n)) + (g b' + Rsum (map g (seq (S b') n)))). rewrite IH. lra.
Qed.

Lemma firstn_range (w : list R) : forall e, (e <= length w)%nat -> Rsum (firstn e w) = range (fun i => nth i w 0) 0 e.
Proof.
  intros e. revert w. induction e as [|e IH]; intros [|x w] H; cbn in H; try lia; [reflexivity|reflexivity|].
  change (x + Rsum (firstn e w) = range (fun i => nth i (x :: w) 0) 0 (S e)). rewrite IH by lia. unfold range. rewrite !Nat.sub_0_r. cbn [seq map]. rewrite <- seq_shift, map_map. reflexivity.
Qed.

Lemma cumulative_range b e : (b <= e)%nat -> (e <= length ws)%nat -> sum_weights ws b e = mass b e.
Proof.
  intros H1 H2. unfold sum_weights, cumulative, mass. fold (range (fun i => nth i ws 0) b e). rewrite !firstn_range by lia. rewrite (range_split _ 0 b e) by lia. lra.
Qed.

Lemma nsum_Fin l : nsum (map Fin l) = Fin (Rsum l).
Proof. unfold nsum, Rsum. induction l as [|x l IH]; [reflexivity|]. cbn [map fold_right]. rewrite IH. reflexivity. Qed.

Hypothesis Hw : Forall (fun w => 0 < w) ws.

Lemma log_weights_range b e : (b <= e)%nat -> (e <= length ws)%nat -> sum_log_weights ws b e = Fin (range (fun i => ln (nth i ws 0)) b e).
Proof.
  intros H1 H2. unfold sum_log_weights. replace (map (fun w => nlog (Fin w)) ws) with (map Fin (map ln ws)).
  2:{ rewrite map_map. apply map_ext_in. intros w Hin. rewrite Forall_forall in Hw. symmetry. now apply nlog_pos, Hw. }
  unfold cumulative_num. rewrite !firstn_map, !nsum_Fin. rewrite <- !firstn_map, !firstn_range by (rewrite map_length; lia).
  change (nsub (Fin ?a) (Fin ?b)) with (Fin (a - b)). f_equal.
  rewrite (range_ext (fun i => ln (nth i ws 0)) (fun i => nth i (map ln ws) 0) b e).
  - rewrite (range_split _ 0 b e) by lia. lra.
  - intros i Hi. rewrite (nth_indep (map ln ws) 0 (ln 0)) by (rewrite map_length; lia). now rewrite map_nth.
Qed.

Lemma mass_pos b e : (b < e)%nat -> (e <= length ws)%nat -> 0 < mass b e.
Proof.
  intros H1 H2. unfold mass. assert (G : forall n b, (b + n <= length ws)%nat -> 0 <= Rsum (map (fun i => nth i ws 0) (seq b n)) /\ ((0 < n)%nat -> 0 < Rsum (map (fun i => nth i ws 0) (seq b n)))).
  { induction n as [|n IH]; intros b' H; [unfold Rsum; cbn; split; [lra|lia]|]. cbn [seq map]. destruct (IH (S b') ltac:(lia)) as [I1 I2].
    assert (0 < nth b' ws 0) by (rewrite Forall_forall in Hw; apply Hw, nth_In; lia).
    change (Rsum (nth b' ws 0 :: map (fun i => nth i ws 0) (seq (S b') n))) with (nth b' ws 0 + Rsum (map (fun i => nth i ws 0) (seq (S b') n))). split; [lra|intros _; lra]. }
  apply G; lia.
Qed.

(** ** The leaves *)

Hypothesis Hx : ascending xs.
Hypothesis Hl : length ws = length xs.
Hypothesis Hn : (2 <= length xs)%nat.

Lemma at_lt i j : (i < j)%nat -> (j < length xs)%nat -> nth i xs 0 < nth j xs 0.
Proof. intros. now apply ascending_nth. Qed.
Lemma at_le i j : (i <= j)%nat -> (j < length xs)%nat -> nth i xs 0 <= nth j xs 0.
Proof. intros H1 H2. destruct (Nat.eq_dec i j) as [->|Hne]; [lra|]. left. apply at_lt; lia. Qed.

Lemma left_le b : (b < length xs)%nat -> left_connecting_point xs b <= nth b xs 0 /\ ((0 < b)%nat -> nth (b - 1) xs 0 < left_connecting_point xs b < nth b xs 0).
Proof.
  intros H. unfold left_connecting_point, at_index. destruct (Nat.ltb_spec 0 b) as [Hb|Hb]; [|split; [lra|lia]]. pose proof (at_lt (b - 1) b ltac:(lia) H). split; [lra|intros _; lra].
Qed.
Lemma right_ge e : (0 < e <= length xs)%nat -> nth (e - 1) xs 0 <= right_connecting_point xs e /\ ((e < length xs)%nat -> nth (e - 1) xs 0 < right_connecting_point xs e < nth e xs 0).
Proof.
  intros H. unfold right_connecting_point, at_index. destruct (Nat.ltb_spec e (length xs)) as [Hb|Hb]; [|split; [lra|lia]]. pose proof (at_lt (e - 1) e ltac:(lia) Hb). split; [lra|intros _; lra].
Qed.

Lemma width_pos b e : (b < e <= length xs)%nat -> left_connecting_point xs b < right_connecting_point xs e.
Proof.
  intros H. pose proof (left_le b ltac:(lia)) as [L1 L2]. pose proof (right_ge e ltac:(lia)) as [R1 R2]. pose proof (at_le b (e - 1) ltac:(lia) ltac:(lia)) as M.
  destruct (Nat.eq_dec b 0) as [->|Hb]; [|specialize (L2 ltac:(lia)); lra]. destruct (Nat.eq_dec e (length xs)) as [->|He]; [|specialize (R2 ltac:(lia)); lra].
  pose proof (at_lt 0 (length xs - 1) ltac:(lia) ltac:(lia)). lra.
Qed.

Lemma in_leaf b e i : (b < e <= length xs)%nat -> (i < length xs)%nat -> in_sint (leaf_interval xs b e) (nth i xs 0) = ((b <=? i) && (i <? e))%nat.
Proof.
  intros H Hi. pose proof (left_le b ltac:(lia)) as [L1 L2]. pose proof (right_ge e ltac:(lia)) as [R1 R2].
  assert (A : Rleb (left_connecting_point xs b) (nth i xs 0) = (b <=? i)%nat).
  { unfold Rleb. destruct (Nat.leb_spec b i) as [Hb|Hb].
    - pose proof (at_le b i Hb Hi). destruct (Rle_dec _ _); [reflexivity|lra].
    - specialize (L2 ltac:(lia)). pose proof (at_le i (b - 1) ltac:(lia) ltac:(lia)). destruct (Rle_dec _ _); [lra|reflexivity]. }
  unfold leaf_interval, in_sint. destruct (Nat.eqb_spec e (length xs)) as [->|He]; unfold above, below; cbn [iclosed iclosed_open lo hi lc rc]; rewrite A; f_equal.
  - unfold Rleb. pose proof (at_le i (length xs - 1) ltac:(lia) ltac:(lia)). destruct (Nat.ltb_spec i (length xs)); [|lia]. destruct (Rle_dec _ _); [reflexivity|lra].
  - unfold Rltb. specialize (R2 ltac:(lia)). destruct (Nat.ltb_spec i e) as [Hc|Hc].
    + pose proof (at_le i (e - 1) ltac:(lia) ltac:(lia)). destruct (Rlt_dec _ _); [reflexivity|lra].
    + pose proof (at_le e i Hc Hi). destruct (Rlt_dec _ _); [lra|reflexivity].
Qed.

Lemma pdf_leaf b e i : (b < e <= length xs)%nat -> (i < length xs)%nat ->
  pdf (leaf_interval xs b e) (nth i xs 0) = if ((b <=? i) && (i <? e))%nat then / (right_connecting_point xs e - left_connecting_point xs b) else 0.
Proof.
  intros H Hi. unfold pdf. cbn [ll1]. rewrite in_leaf by assumption. destruct ((b <=? i) && (i <? e))%nat; [|reflexivity]. pose proof (width_pos b e H) as W.
  assert (E : nsub (hi (leaf_interval xs b e)) (lo (leaf_interval xs b e)) = Fin (right_connecting_point xs e - left_connecting_point xs b)) by (unfold leaf_interval; destruct (_ =? _)%nat; reflexivity).
  rewrite E, nlog_pos by lra. cbn [nopp wexp]. rewrite exp_Ropp, exp_ln by lra. reflexivity.
Qed.

Lemma ln_likelihood f b e : (forall i, (b <= i < e)%nat -> 0 < f (nth i xs 0)) ->
  0 < likelihood f b e /\ ln (likelihood f b e) = range (fun i => ln (f (nth i xs 0))) b e.
Proof.
  intros H. unfold likelihood, range. assert (G : forall n b', (b <= b')%nat -> (b' + n <= e)%nat -> 0 < Rprod (map (fun i => f (nth i xs 0)) (seq b' n)) /\
    ln (Rprod (map (fun i => f (nth i xs 0)) (seq b' n))) = Rsum (map (fun i => ln (f (nth i xs 0))) (seq b' n))).
  { induction n as [|n IH]; intros b' H1 H2; [unfold Rprod, Rsum; cbn; split; [lra|apply ln_1]|]. cbn [seq map]. destruct (IH (S b') ltac:(lia) ltac:(lia)) as [I1 I2].
    pose proof (H b' ltac:(lia)) as P. change (Rprod (f (nth b' xs 0) :: ?l)) with (f (nth b' xs 0) * Rprod l). change (Rsum (ln (f (nth b' xs 0)) :: ?l)) with (ln (f (nth b' xs 0)) + Rsum l).
    split; [now apply Rmult_lt_0_compat|]. rewrite ln_mult by assumption. now rewrite I2. }
  destruct (le_lt_dec b e) as [Hbe|Hbe]; [apply G; lia|]. replace (e - b)%nat with 0%nat by lia. unfold Rprod, Rsum. cbn. split; [lra|apply ln_1].
Qed.

(** ** The likelihoods *)

Lemma one_leaf_at b e i : (b < e <= length xs)%nat -> (b <= i < e)%nat -> one_leaf b e (nth i xs 0) = / (right_connecting_point xs e - left_connecting_point xs b).
Proof.
  intros H Hi. unfold one_leaf. rewrite pdf_leaf by lia. destruct (Nat.leb_spec b i); [|lia]. destruct (Nat.ltb_spec i e); [reflexivity|lia].
Qed.

(** [log_likelihood_without_split] is the logarithm of the likelihood of the values under one leaf, up to the weights ... *)
Theorem C88_without_split b e : (b < e <= length xs)%nat ->
  log_likelihood_without_split xs ws b e = Fin (range (fun i => ln (nth i ws 0)) b e + ln (likelihood (one_leaf b e) b e)).
Proof.
  intros H. pose proof (width_pos b e H) as W. unfold log_likelihood_without_split. rewrite log_weights_range by lia. rewrite nlog_pos by lra.
  cbn [nopp nmul nadd]. f_equal. f_equal. assert (P : 0 < / (right_connecting_point xs e - left_connecting_point xs b)) by (apply Rinv_0_lt_compat; lra).
  destruct (ln_likelihood (one_leaf b e) b e) as [_ ->]; [intros i Hi; now rewrite one_leaf_at|].
  rewrite (range_ext _ (fun _ => - ln (right_connecting_point xs e - left_connecting_point xs b))); [now rewrite range_const|].
  intros i Hi. rewrite one_leaf_at by assumption. apply ln_Rinv. lra.
Qed.

Lemma two_leaves_at b s e i : (b < s)%nat -> (s < e <= length xs)%nat -> (b <= i < e)%nat ->
  two_leaves b s e (nth i xs 0) = if (i <? s)%nat then mass b s / mass b e / (right_connecting_point xs s - left_connecting_point xs b)
                                  else mass s e / mass b e / (right_connecting_point xs e - left_connecting_point xs s).
Proof.
  intros H1 H2 Hi. unfold two_leaves. rewrite !pdf_leaf by lia. destruct (Nat.ltb_spec i s), (Nat.leb_spec b i), (Nat.leb_spec s i), (Nat.ltb_spec i e); try lia; cbn [andb]; unfold Rdiv; ring.
Qed.

(** ... and the sum of the sides of a split is the one of the likelihood under two leaves that share the weight. *)
Theorem C88_of_split b s e : (b < s)%nat -> (s < e <= length xs)%nat ->
  log_likelihood_of_split xs ws b e s = Fin (range (fun i => ln (nth i ws 0)) b e + ln (likelihood (two_leaves b s e) b e)).
Proof.
  intros H1 H2. pose proof (width_pos b s ltac:(lia)) as W1. pose proof (width_pos s e ltac:(lia)) as W2.
  pose proof (mass_pos b s ltac:(lia) ltac:(lia)) as M1. pose proof (mass_pos s e ltac:(lia) ltac:(lia)) as M2. pose proof (mass_pos b e ltac:(lia) ltac:(lia)) as M3.
  assert (Sl : left_connecting_point xs s = (at_index xs (s - 1) + at_index xs s) / 2) by (unfold left_connecting_point; destruct (Nat.ltb_spec 0 s); [reflexivity|lia]).
  assert (Sr : right_connecting_point xs s = (at_index xs (s - 1) + at_index xs s) / 2) by (unfold right_connecting_point; destruct (Nat.ltb_spec s (length xs)); [lra|lia]).
  unfold log_likelihood_of_split, log_likelihood_of_split_side. rewrite <- Sr.
  unfold Rltb at 1. destruct (Rlt_dec 0 (right_connecting_point xs s - left_connecting_point xs b)) as [_|F]; [|lra].
  unfold Rltb. destruct (Rlt_dec 0 (right_connecting_point xs s - left_connecting_point xs b)) as [_|F]; [|lra].
  rewrite Sr, <- Sl. destruct (Rlt_dec 0 (left_connecting_point xs s - right_connecting_point xs e)) as [F|_]; [lra|].
  rewrite Sl, <- Sr. rewrite (Rabs_right (right_connecting_point xs s - left_connecting_point xs b)) by lra.
  replace (Rabs (right_connecting_point xs s - right_connecting_point xs e)) with (right_connecting_point xs e - left_connecting_point xs s) by (rewrite Rabs_left1; rewrite ?Sr, ?Sl in *; lra).
  rewrite !cumulative_range, !log_weights_range by lia. rewrite !nlog_pos by lra.
  change (nsub (nsub (Fin ?a) (Fin ?b)) (Fin ?c)) with (Fin (a - b - c)). cbn [nmul nadd]. f_equal.
  assert (P1 : 0 < mass b s / mass b e / (right_connecting_point xs s - left_connecting_point xs b)) by (apply Rdiv_lt_0_compat; [apply Rdiv_lt_0_compat|]; lra).
  assert (P2 : 0 < mass s e / mass b e / (right_connecting_point xs e - left_connecting_point xs s)) by (apply Rdiv_lt_0_compat; [apply Rdiv_lt_0_compat|]; lra).
  destruct (ln_likelihood (two_leaves b s e) b e) as [_ ->]; [intros i Hi; rewrite two_leaves_at by assumption; destruct (i <? s)%nat; assumption|].
  assert (Q : forall a c d, 0 < a -> 0 < c -> 0 < d -> ln (a / c / d) = ln a - ln c - ln d).
  { intros a c d A1 A2 A3. unfold Rdiv. rewrite ln_mult, ln_mult, !ln_Rinv; try lra; try (apply Rinv_0_lt_compat; lra). apply Rmult_lt_0_compat; [lra|apply Rinv_0_lt_compat; lra]. }
  rewrite (range_split (fun i => ln (two_leaves b s e (nth i xs 0))) b s e), (range_split (fun i => ln (nth i ws 0)) b s e) by lia.
  rewrite (range_ext (fun i => ln (two_leaves b s e (nth i xs 0))) (fun _ => ln (mass b s) - ln (mass b e) - ln (right_connecting_point xs s - left_connecting_point xs b)) b s).
  2:{ intros i Hi. rewrite two_leaves_at by lia. destruct (Nat.ltb_spec i s); [|lia]. apply Q; lra. }
  rewrite (range_ext (fun i => ln (two_leaves b s e (nth i xs 0))) (fun _ => ln (mass s e) - ln (mass b e) - ln (right_connecting_point xs e - left_connecting_point xs s)) s e).
  2:{ intros i Hi. rewrite two_leaves_at by lia. destruct (Nat.ltb_spec i s); [lia|]. apply Q; lra. }
  rewrite !range_const. lra.
Qed.

Lemma ratio_exp b s e : (b < s)%nat -> (s < e <= length xs)%nat ->
  0 < ratio b s e /\ nexp (nsub (log_likelihood_of_split xs ws b e s) (log_likelihood_without_split xs ws b e)) = Fin (ratio b s e).
Proof.
  intros H1 H2. pose proof (width_pos b e ltac:(lia)) as W. pose proof (width_pos b s ltac:(lia)) as W1. pose proof (width_pos s e ltac:(lia)) as W2.
  pose proof (mass_pos b s ltac:(lia) ltac:(lia)) as M1. pose proof (mass_pos s e ltac:(lia) ltac:(lia)) as M2. pose proof (mass_pos b e ltac:(lia) ltac:(lia)) as M3.
  assert (L1 : 0 < likelihood (one_leaf b e) b e).
  { apply ln_likelihood. intros i Hi. rewrite one_leaf_at by lia. apply Rinv_0_lt_compat. lra. }
  assert (L2 : 0 < likelihood (two_leaves b s e) b e).
  { apply ln_likelihood. intros i Hi. rewrite two_leaves_at by lia. destruct (i <? s)%nat; (apply Rdiv_lt_0_compat; [apply Rdiv_lt_0_compat|]; lra). }
  split; [unfold ratio; now apply Rdiv_lt_0_compat|]. rewrite C88_of_split, C88_without_split by lia. change (nsub (Fin ?a) (Fin ?b)) with (Fin (a - b)). cbn [nexp]. f_equal.
  unfold ratio. match goal with |- exp (?r + ?a - (?r + ?b)) = _ => replace (r + a - (r + b)) with (a + - b) by ring end.
  rewrite exp_plus, exp_Ropp, !exp_ln by assumption. reflexivity.
Qed.

(** ** All steps *)

(** The density of a mixture of uniform leaves. *)
Definition density_of (leaves : list (R * sint)) (x : R) : R := Rsum (map (fun wi => fst wi * pdf (snd wi) x) leaves).

Definition width (be : nat * nat) : R := right_connecting_point xs (snd be) - left_connecting_point xs (fst be).
Definition cell (be : nat * nat) : R := mass (fst be) (snd be) / mass 0 (length xs) / width be.

Lemma cell_pos b e : (b < e <= length xs)%nat -> 0 < cell (b, e) /\ 0 < width (b, e).
Proof.
  intros H. pose proof (width_pos b e H) as W. pose proof (mass_pos b e ltac:(lia) ltac:(lia)) as M1. pose proof (mass_pos 0 (length xs) ltac:(lia) ltac:(lia)) as M2.
  unfold cell, width. cbn [fst snd]. split; [|lra]. apply Rdiv_lt_0_compat; [apply Rdiv_lt_0_compat|]; lra.
Qed.

Lemma leaf_share b e : (b < e <= length xs)%nat -> leaf_of xs ws (b, e) = (mass b e / mass 0 (length xs), leaf_interval xs b e).
Proof.
  intros H. unfold leaf_of. cbn [fst snd]. f_equal. rewrite cumulative_range by lia. f_equal. rewrite <- (cumulative_range 0 (length xs)) by lia. unfold sum_weights. rewrite Hl. unfold cumulative at 3. cbn [firstn]. unfold Rsum at 1. cbn. lra.
Qed.

Lemma density_cons wi l x : density_of (wi :: l) x = fst wi * pdf (snd wi) x + density_of l x.
Proof. reflexivity. Qed.

Lemma chain_before a L i : chain a (length xs) L -> (i < a)%nat -> density_of (map (leaf_of xs ws) L) (nth i xs 0) = 0.
Proof.
  revert a. induction L as [|[b e] L IH]; cbn [chain map]; intros a C Hi; [reflexivity|]. destruct C as (-> & H & C). pose proof (chain_le _ _ _ C) as Ce.
  rewrite density_cons, (IH e C) by lia. rewrite leaf_share by lia. cbn [fst snd]. rewrite pdf_leaf by lia. destruct (Nat.leb_spec a i); [lia|]. cbn [andb]. ring.
Qed.

(** The logarithm of the density of the values, weighted with [h]. *)
Lemma chain_log h a L : chain a (length xs) L ->
  (forall i, (a <= i < length xs)%nat -> 0 < density_of (map (leaf_of xs ws) L) (nth i xs 0)) /\
  range (fun i => h i * ln (density_of (map (leaf_of xs ws) L) (nth i xs 0))) a (length xs) = Rsum (map (fun be => range h (fst be) (snd be) * ln (cell be)) L).
Proof.
  revert a. induction L as [|[b e] L IH]; cbn [chain map]; intros a C.
  { subst a. split; [lia|]. unfold range. rewrite Nat.sub_diag. reflexivity. }
  destruct C as (-> & H & C). pose proof (chain_le _ _ _ C) as Ce. destruct (IH e C) as [I1 I2]. destruct (cell_pos a e ltac:(lia)) as [C1 C2].
  assert (D1 : forall i, (a <= i < e)%nat -> density_of (leaf_of xs ws (a, e) :: map (leaf_of xs ws) L) (nth i xs 0) = cell (a, e)).
  { intros i Hi. rewrite density_cons, (chain_before e L i C) by lia. rewrite leaf_share by lia. cbn [fst snd]. rewrite pdf_leaf by lia.
    destruct (Nat.leb_spec a i); [|lia]. destruct (Nat.ltb_spec i e); [|lia]. cbn [andb]. unfold cell, width, Rdiv. cbn [fst snd]. ring. }
  assert (D2 : forall i, (e <= i < length xs)%nat -> density_of (leaf_of xs ws (a, e) :: map (leaf_of xs ws) L) (nth i xs 0) = density_of (map (leaf_of xs ws) L) (nth i xs 0)).
  { intros i Hi. rewrite density_cons. rewrite leaf_share by lia. cbn [fst snd]. rewrite pdf_leaf by lia. destruct (Nat.ltb_spec i e); [lia|]. rewrite andb_false_r. ring. }
  split.
  - intros i Hi. destruct (le_lt_dec e i) as [Hc|Hc]; [rewrite D2 by lia; apply I1; lia|rewrite D1 by lia; exact C1].
  - rewrite (range_split _ a e (length xs)) by lia. change (Rsum (?x :: ?l)) with (x + Rsum l). cbn [fst snd]. rewrite <- I2. f_equal.
    + rewrite (range_ext _ (fun i => h i * ln (cell (a, e)))) by (intros i Hi; now rewrite D1). unfold range. generalize (seq a (e - a)). intros l. induction l as [|j l IHl]; [unfold Rsum; cbn; lra|].
      cbn [map]. change (h j * ln (cell (a, e)) + Rsum (map (fun i => h i * ln (cell (a, e))) l) = (h j + Rsum (map h l)) * ln (cell (a, e))). rewrite IHl. ring.
    + apply range_ext. intros i Hi. now rewrite D2.
Qed.

(** Two measures of progress: the logarithm of the likelihood of the values, counted once or with their weights. *)
Definition progress (h : nat -> R) (L : list (nat * nat)) : R := Rsum (map (fun be => range h (fst be) (snd be) * ln (cell be)) L).

Lemma ln_div3 a c d : 0 < a -> 0 < c -> 0 < d -> ln (a / c / d) = ln a - ln c - ln d.
Proof.
  intros A1 A2 A3. unfold Rdiv. rewrite ln_mult, ln_mult, !ln_Rinv; try lra; try (apply Rinv_0_lt_compat; lra). apply Rmult_lt_0_compat; [lra|apply Rinv_0_lt_compat; lra].
Qed.

Lemma ratio_progress b s e rest : (b < s)%nat -> (s < e <= length xs)%nat ->
  progress (fun _ => 1) ((b, s) :: (s, e) :: rest) = progress (fun _ => 1) ((b, e) :: rest) + ln (ratio b s e).
Proof.
  intros H1 H2. unfold progress. cbn [map]. rewrite !Rsum_cons. cbn [fst snd].
  rewrite !range_const, !Rmult_1_r.
  pose proof (width_pos b e ltac:(lia)) as W. pose proof (width_pos b s ltac:(lia)) as W1. pose proof (width_pos s e ltac:(lia)) as W2.
  pose proof (mass_pos b s ltac:(lia) ltac:(lia)) as M1. pose proof (mass_pos s e ltac:(lia) ltac:(lia)) as M2. pose proof (mass_pos b e ltac:(lia) ltac:(lia)) as M3. pose proof (mass_pos 0 (length xs) ltac:(lia) ltac:(lia)) as M4.
  assert (E : ln (ratio b s e) = ln (likelihood (two_leaves b s e) b e) - ln (likelihood (one_leaf b e) b e)).
  { assert (L1 : 0 < likelihood (one_leaf b e) b e) by (apply ln_likelihood; intros i Hi; rewrite one_leaf_at by lia; apply Rinv_0_lt_compat; lra).
    assert (L2 : 0 < likelihood (two_leaves b s e) b e) by (apply ln_likelihood; intros i Hi; rewrite two_leaves_at by lia; destruct (i <? s)%nat; (apply Rdiv_lt_0_compat; [apply Rdiv_lt_0_compat|]; lra)).
    unfold ratio, Rdiv. rewrite ln_mult, ln_Rinv; try assumption; [lra|now apply Rinv_0_lt_compat]. }
  rewrite E. destruct (ln_likelihood (one_leaf b e) b e) as [_ ->]; [intros i Hi; rewrite one_leaf_at by lia; apply Rinv_0_lt_compat; lra|].
  destruct (ln_likelihood (two_leaves b s e) b e) as [_ ->]; [intros i Hi; rewrite two_leaves_at by lia; destruct (i <? s)%nat; (apply Rdiv_lt_0_compat; [apply Rdiv_lt_0_compat|]; lra)|].
  rewrite (range_split (fun i => ln (two_leaves b s e (nth i xs 0))) b s e) by lia.
  rewrite (range_ext (fun i => ln (two_leaves b s e (nth i xs 0))) (fun _ => ln (mass b s) - ln (mass b e) - ln (width (b, s))) b s).
  2:{ intros i Hi. rewrite two_leaves_at by lia. destruct (Nat.ltb_spec i s); [|lia]. unfold width. cbn [fst snd]. apply ln_div3; lra. }
  rewrite (range_ext (fun i => ln (two_leaves b s e (nth i xs 0))) (fun _ => ln (mass s e) - ln (mass b e) - ln (width (s, e))) s e).
  2:{ intros i Hi. rewrite two_leaves_at by lia. destruct (Nat.ltb_spec i s); [lia|]. unfold width. cbn [fst snd]. apply ln_div3; lra. }
  rewrite (range_ext (fun i => ln (one_leaf b e (nth i xs 0))) (fun _ => - ln (width (b, e))) b e).
  2:{ intros i Hi. rewrite one_leaf_at by lia. unfold width. cbn [fst snd]. apply ln_Rinv. lra. }
  rewrite !range_const. unfold cell, width in *. cbn [fst snd] in *. rewrite !ln_div3 by lra. replace (INR (e - b)) with (INR (s - b) + INR (e - s)) by (rewrite <- plus_INR; f_equal; lia). ring.
Qed.

(** The weighted likelihood never falls, whatever the split. *)
Lemma weighted_progress b s e rest : (b < s)%nat -> (s < e <= length xs)%nat ->
  progress (fun i => nth i ws 0) ((b, e) :: rest) <= progress (fun i => nth i ws 0) ((b, s) :: (s, e) :: rest).
Proof.
  intros H1 H2. unfold progress. cbn [map]. rewrite !Rsum_cons. cbn [fst snd].
  change (range (fun i => nth i ws 0)) with mass.
  pose proof (width_pos b e ltac:(lia)) as W. pose proof (width_pos b s ltac:(lia)) as W1. pose proof (width_pos s e ltac:(lia)) as W2.
  pose proof (mass_pos b s ltac:(lia) ltac:(lia)) as M1. pose proof (mass_pos s e ltac:(lia) ltac:(lia)) as M2. pose proof (mass_pos b e ltac:(lia) ltac:(lia)) as M3. pose proof (mass_pos 0 (length xs) ltac:(lia) ltac:(lia)) as M4.
  assert (EM : mass b e = mass b s + mass s e) by (unfold mass; apply (range_split (fun i => nth i ws 0)); lia).
  assert (EW : left_connecting_point xs s = right_connecting_point xs s) by (unfold left_connecting_point, right_connecting_point; destruct (Nat.ltb_spec 0 s); [|lia]; destruct (Nat.ltb_spec s (length xs)); [lra|lia]).
  unfold cell, width. cbn [fst snd]. rewrite !ln_div3 by lra.
  set (A := mass b e) in *. set (a := mass b s) in *. set (c := mass s e) in *. set (B := right_connecting_point xs e - left_connecting_point xs b) in *.
  set (p := right_connecting_point xs s - left_connecting_point xs b) in *. set (q := right_connecting_point xs e - left_connecting_point xs s) in *.
  assert (EB : B = p + q) by (unfold B, p, q; lra). assert (B0 : 0 < B) by (unfold B; lra). assert (p0 : 0 < p) by (unfold p; lra). assert (q0 : 0 < q) by (unfold q; lra).
  assert (G : forall u r, 0 < u -> 0 < r -> u * (ln A + ln r - ln B - ln u) <= A * r / B - u).
  { intros u r Hu Hr. assert (X : ln A + ln r - ln B - ln u = ln (A * r / B / u)) by (rewrite ln_div3, ln_mult; try lra; nra). rewrite X.
    assert (Y : 0 < A * r / B / u) by (repeat apply Rdiv_lt_0_compat; try lra; nra).
    assert (Z : ln (A * r / B / u) <= A * r / B / u - 1) by (pose proof (exp_ineq1_le (ln (A * r / B / u))) as T; rewrite exp_ln in T by exact Y; lra).
    apply (Rmult_le_compat_l u) in Z; [|lra]. replace (A * r / B - u) with (u * (A * r / B / u - 1)) by (field; lra). exact Z. }
  pose proof (G a p M1 p0) as G1. pose proof (G c q M2 q0) as G2. assert (S0 : A * p / B + A * q / B = A) by (rewrite EB; field; lra).
  rewrite EM at 1. nra.
Qed.

Lemma progress_perm h L L' : Permutation L L' -> progress h L = progress h L'.
Proof. intros P. unfold progress. apply Rsum_perm. now apply Permutation_map. Qed.
(** ** The decision *)

Variable k : nat.      (* min_samples_per_quantile *)
Variable imp : R.      (* min_likelihood_improvement *)
Hypothesis Hk : (1 <= k)%nat.
Hypothesis Himp : 0 <= imp.

(** The splits that leave at least [k] values on both sides. *)
Definition allowed (b e s : nat) : Prop := (b + k <= s)%nat /\ (s + k <= e)%nat.
(** The first of the best ones. *)
Definition first_best (b e s : nat) : Prop :=
  allowed b e s /\ (forall s', allowed b e s' -> ratio b s' e <= ratio b s e) /\ (forall s', allowed b e s' -> (s' < s)%nat -> ratio b s' e < ratio b s e).

Lemma split_value b e s : (e <= length xs)%nat -> allowed b e s -> log_likelihood_of_split xs ws b e s =
  Fin (ln (ratio b s e) + (range (fun i => ln (nth i ws 0)) b e + ln (likelihood (one_leaf b e) b e))).
Proof.
  intros He [H1 H2]. destruct (ratio_exp b s e ltac:(lia) ltac:(lia)) as [R1 R2]. rewrite C88_of_split, C88_without_split in R2 by lia.
  change (nsub (Fin ?a) (Fin ?b)) with (Fin (a - b)) in R2. cbn [nexp] in R2. injection R2 as R2. rewrite C88_of_split by lia. f_equal. rewrite <- R2, ln_exp. lra.
Qed.

Lemma best_split b e : (e <= length xs)%nat ->
  (exists s, first_best b e s /\ compute_best_split k (log_likelihood_of_split xs ws) b e = (log_likelihood_of_split xs ws b e s, Some s)) \/
  ((forall s, ~ allowed b e s) /\ compute_best_split k (log_likelihood_of_split xs ws) b e = (NInf, None)).
Proof.
  intros He. unfold compute_best_split. set (V := log_likelihood_of_split xs ws).
  assert (V1 : forall s s', allowed b e s -> allowed b e s' -> ngtb (V b e s) (V b e s') = Rltb (ratio b s' e) (ratio b s e)).
  { intros s s' A A'. unfold V. rewrite !split_value by assumption. cbn [ngtb]. destruct A as [A1 A2], A' as [A3 A4].
    destruct (ratio_exp b s e ltac:(lia) ltac:(lia)) as [R1 _]. destruct (ratio_exp b s' e ltac:(lia) ltac:(lia)) as [R1' _].
    unfold Rltb. destruct (Rlt_dec (ratio b s' e) (ratio b s e)) as [L|L].
    - apply ln_increasing in L; [|exact R1']. destruct (Rlt_dec _ _); [reflexivity|lra].
    - destruct (Rlt_dec _ _) as [L'|]; [|reflexivity]. exfalso. apply L. apply ln_lt_inv; try assumption. lra. }
  assert (V2 : forall s, allowed b e s -> ngtb (V b e s) NInf = true) by (intros s A; unfold V; rewrite split_value by assumption; reflexivity).
  set (l := seq (b + k) (e - k + 1 - (b + k))).
  assert (Al : forall s, In s l <-> allowed b e s) by (intros s; unfold l, allowed; rewrite in_seq; lia).
  (* the best of a prefix *)
  assert (G : forall n, (n <= e - k + 1 - (b + k))%nat ->
    let r := fold_left (better_split V b e) (seq (b + k) n) (NInf, None) in
    (n = 0%nat /\ r = (NInf, None)) \/ exists s, r = (V b e s, Some s) /\ In s (seq (b + k) n) /\
      (forall s', In s' (seq (b + k) n) -> ratio b s' e <= ratio b s e) /\ (forall s', In s' (seq (b + k) n) -> (s' < s)%nat -> ratio b s' e < ratio b s e)).
  { induction n as [|n IH]; intros Hle; [left; split; reflexivity|]. right. rewrite seq_S, fold_left_app. cbn [fold_left]. set (t := (b + k + n)%nat).
    assert (At : allowed b e t) by (unfold allowed, t; lia). assert (Sub : forall s, In s (seq (b + k) n) -> allowed b e s) by (intros s Hs; apply in_seq in Hs; unfold allowed; lia).
    destruct (IH ltac:(lia)) as [[-> ->]|(s & -> & I1 & I2 & I3)].
    - exists t. unfold better_split. cbn [fst]. rewrite V2 by exact At. split; [reflexivity|]. cbn [seq app]. split; [now left|].
      split; [intros s' [<-|[]]; lra|intros s' [<-|[]]; lia].
    - unfold better_split. cbn [fst]. rewrite V1 by auto. unfold Rltb. destruct (Rlt_dec (ratio b s e) (ratio b t e)) as [L|L].
      + exists t. split; [reflexivity|]. split; [apply in_or_app; right; now left|]. split.
        * intros s' Hs'. apply in_app_or in Hs'. destruct Hs' as [Hs'|[<-|[]]]; [specialize (I2 s' Hs'); lra|lra].
        * intros s' Hs' Hlt. apply in_app_or in Hs'. destruct Hs' as [Hs'|[<-|[]]]; [specialize (I2 s' Hs'); lra|lia].
      + exists s. split; [reflexivity|]. split; [apply in_or_app; now left|]. split.
        * intros s' Hs'. apply in_app_or in Hs'. destruct Hs' as [Hs'|[<-|[]]]; [auto|fold t; lra].
        * intros s' Hs' Hlt. apply in_app_or in Hs'. destruct Hs' as [Hs'|[<-|[]]]; [auto|]. apply in_seq in I1. fold t in Hlt. unfold t in Hlt. lia. }
  destruct (G _ (le_n _)) as [[E1 E2]|(s & E & I1 & I2 & I3)].
  - right. split; [|exact E2]. intros s A. unfold allowed in A. lia.
  - left. exists s. fold l in I1, I2, I3. split; [|exact E]. split; [now apply Al|]. split; intros s' A'; [apply I2|apply I3]; now apply Al.
Qed.

(** A step splits at the first of the best allowed positions if the likelihood of the values grows by more than the given factor,
    and otherwise mounts one leaf with the share of their weight. *)
Theorem C88_decision b e : (b < e <= length xs)%nat ->
  let step := induce xs ws k imp (log_likelihood_without_split xs ws) (log_likelihood_of_split xs ws) b e in
  (exists s, first_best b e s /\ imp < ratio b s e /\ step = Some (inl [(b, s); (s, e)])) \/
  ((forall s, allowed b e s -> ratio b s e <= imp) /\ step = Some (inr (mass b e / mass 0 (length xs), leaf_interval xs b e))).
Proof.
  intros H. cbv zeta. unfold induce. assert (Em : sum_weights ws b e / cumulative ws (length ws) = mass b e / mass 0 (length xs)).
  { rewrite cumulative_range by lia. f_equal. f_equal. rewrite <- (cumulative_range 0 (length xs)) by lia. unfold sum_weights. rewrite Hl. unfold cumulative at 3. cbn [firstn]. unfold Rsum at 1. cbn. lra. }
  rewrite Em. destruct (best_split b e ltac:(lia)) as [(s & F & ->)|(N & ->)].
  - destruct F as (A & F1 & F2). destruct A as [A1 A2]. destruct (ratio_exp b s e ltac:(lia) ltac:(lia)) as [R1 R2].
    unfold improvement_is_good_enough. rewrite R2. cbn [ngtb]. unfold Rltb. destruct (Rlt_dec imp (ratio b s e)) as [L|L].
    + left. exists s. split; [split; [now split|split; assumption]|]. split; [exact L|reflexivity].
    + right. split; [|reflexivity]. intros s' A'. specialize (F1 s' A'). lra.
  - right. split; [intros s A; destruct (N s A)|]. unfold improvement_is_good_enough. rewrite C88_without_split by lia. cbn. unfold Rltb. destruct (Rlt_dec imp 0); [lra|reflexivity].
Qed.

End Split.

(** A property of the segments that no step destroys. *)
Lemma loop_inv xs ws k imp whole split v (Inv : list (nat * nat) -> Prop) (Done : nat * nat -> Prop) n : (1 <= k)%nat -> 0 <= imp ->
  (forall l l', Permutation l l' -> Inv l -> Inv l') ->
  (forall b e s rest, (b < e <= n)%nat -> (b + k <= s /\ s + k <= e)%nat -> induce xs ws k imp whole split b e = Some (inl [(b, s); (s, e)]) -> Inv ((b, e) :: rest) -> Inv ((b, s) :: (s, e) :: rest)) ->
  (forall b e, (b < e <= n)%nat -> induce xs ws k imp whole split b e = Some (inr (leaf_of xs ws (b, e))) -> Done (b, e)) ->
  forall m queue done L, chain 0 n L -> Permutation (queue ++ done) L -> (budget queue <= m)%nat -> Inv (queue ++ done) -> Forall Done done ->
  exists done' L', chain 0 n L' /\ Permutation done' L' /\ Inv done' /\ Forall Done done' /\
    forall fuel, (m <= fuel)%nat -> induction_loop xs ws k imp whole split v fuel queue (layout (star (map (leaf_node xs ws v) done))) (S (length done)) = Some (layout (star (map (leaf_node xs ws v) done'))).
Proof.
  intros Hk Himp Ip Is Id. induction m as [|m IH]; intros queue done L C P Hm HI HD.
  - destruct queue as [|[b e] queue].
    + exists done, L. repeat split; auto. intros [|fuel] _; reflexivity.
    + exfalso. assert (Hin : In (b, e) L) by (eapply Permutation_in; [exact P|now left]). apply (chain_bounds _ _ _ _ _ C) in Hin. unfold budget in Hm. cbn in Hm. lia.
  - destruct queue as [|[b e] queue].
    + exists done, L. repeat split; auto. intros [|fuel] _; reflexivity.
    + assert (Hin : In (b, e) L) by (eapply Permutation_in; [exact P|now left]). assert (Hb := chain_bounds _ _ _ _ _ C Hin).
      change ((b, e) :: queue) with ([(b, e)] ++ queue) in Hm. rewrite budget_app in Hm. unfold budget at 1 in Hm. cbn [map list_sum fold_right fst snd] in Hm.
      destruct (induce_spec xs ws k imp whole split Hk Himp b e) as [E|(s & Hs & E)].
      * assert (Pq : Permutation (((b, e) :: queue) ++ done) (queue ++ done ++ [(b, e)])).
        { cbn [app]. rewrite app_assoc. apply Permutation_cons_append. }
        destruct (IH queue (done ++ [(b, e)]) L C) as (done' & L' & C' & P' & I' & D' & R').
        { now rewrite <- Pq. }
        { lia. }
        { eapply Ip; [exact Pq|exact HI]. }
        { apply Forall_app. split; [exact HD|]. constructor; [|constructor]. apply Id; [lia|exact E]. }
        exists done', L'. repeat split; auto. intros [|fuel] Hf; [lia|]. cbn [induction_loop]. rewrite E. destruct (leaf_of xs ws (b, e)) as [w i] eqn:El.
        specialize (R' fuel ltac:(lia)). rewrite map_app, app_length in R'. cbn [map length] in R'. rewrite <- R'. rewrite Nat.add_1_r.
        rewrite <- (map_length (leaf_node xs ws v) done) at 1 2. rewrite star_add. replace (leaf_node xs ws v (b, e)) with (nlog (Fin w), DUnif v i) by (unfold leaf_node; now rewrite El). reflexivity.
      * assert (Pq : Permutation ((b, s) :: (s, e) :: queue ++ done) ((queue ++ [(b, s); (s, e)]) ++ done)).
        { rewrite <- app_assoc. cbn [app]. rewrite <- Permutation_middle. apply perm_skip. apply Permutation_middle. }
        assert (C1 : exists L1, chain 0 n L1 /\ Permutation ((b, s) :: (s, e) :: queue ++ done) L1).
        { assert (Hin2 := Hin). apply in_split in Hin2. destruct Hin2 as (L1 & L2 & ->). exists (L1 ++ (b, s) :: (s, e) :: L2). split.
          - apply chain_app in C. destruct C as (mm & C1 & C2). apply chain_app. exists mm. split; [exact C1|]. cbn [chain] in *. destruct C2 as (-> & H & C2). repeat split; auto; lia.
          - cbn [app] in P. rewrite <- Permutation_middle in P. apply Permutation_cons_inv in P. rewrite P. rewrite <- Permutation_middle. apply perm_skip. apply Permutation_middle. }
        destruct C1 as (L1 & C1 & P1).
        destruct (IH (queue ++ [(b, s); (s, e)]) done L1 C1) as (done' & L' & C' & P' & I' & D' & R').
        { now rewrite <- Pq. }
        { rewrite budget_app. unfold budget at 2. cbn [map list_sum fold_right fst snd]. lia. }
        { eapply Ip; [exact Pq|]. apply (Is b e s); [lia|exact Hs|exact E|exact HI]. }
        { exact HD. }
        exists done', L'. repeat split; auto. intros [|fuel] Hf; [lia|]. cbn [induction_loop]. rewrite E. apply R'. lia.
Qed.

Lemma by_index (xs : list R) : map (fun i => nth i xs 0) (seq 0 (length xs)) = xs.
Proof. induction xs as [|x xs IH]; [reflexivity|]. cbn [length seq map nth]. f_equal. rewrite <- seq_shift, map_map. exact IH. Qed.

Lemma Rsum_by_index (f : R -> R) xs : range (fun i => f (nth i xs 0)) 0 (length xs) = Rsum (map f xs).
Proof. unfold range. rewrite Nat.sub_0_r. rewrite <- (map_map (fun i => nth i xs 0) f). now rewrite by_index. Qed.

Lemma Rprod_ln l : Forall (fun x => 0 < x) l -> 0 < Rprod l /\ ln (Rprod l) = Rsum (map ln l).
Proof.
  induction 1 as [|x l Hx F [I1 I2]]; [unfold Rprod, Rsum; cbn; split; [lra|apply ln_1]|]. change (Rprod (x :: l)) with (x * Rprod l). cbn [map]. rewrite Rsum_cons.
  split; [now apply Rmult_lt_0_compat|]. rewrite ln_mult by assumption. now rewrite I2.
Qed.

Lemma Rprod_le (f g : R -> R) l : (forall x, In x l -> 0 < f x) -> (forall x, In x l -> 0 < g x) -> forall c, 0 < c -> ln c + Rsum (map (fun x => ln (f x)) l) <= Rsum (map (fun x => ln (g x)) l) -> c * Rprod (map f l) <= Rprod (map g l).
Proof.
  intros Hf Hg c Hc H. destruct (Rprod_ln (map f l)) as [F1 F2]; [apply Forall_map, Forall_forall; exact Hf|]. destruct (Rprod_ln (map g l)) as [G1 G2]; [apply Forall_map, Forall_forall; exact Hg|].
  rewrite map_map in F2, G2. rewrite <- F2, <- G2, <- ln_mult in H by assumption. destruct H as [H|H]; [left; apply ln_lt_inv; auto; nra|right; apply ln_inv; auto; nra].
Qed.

(** Every value of the data, through the distinct values and their counts. *)
Lemma counted (g : R -> R) data : Rsum (map (fun xc => INR (snd xc) * g (fst xc)) (np_unique data)) = Rsum (map g data).
Proof.
  induction data as [|x data IH]; [reflexivity|]. cbn [np_unique fold_right map]. rewrite Rsum_cons, <- IH. fold (np_unique data). generalize (np_unique data). intros l. clear IH.
  induction l as [|[z c] l IH]; cbn [uniq_insert]; [cbn [map]; rewrite Rsum_cons; cbn; lra|]. destruct (Rlt_dec x z).
  - destruct (Rltb x z) eqn:X; [|unfold Rltb in X; destruct (Rlt_dec x z); [discriminate|contradiction]]. cbn [map]. rewrite !Rsum_cons. cbn [fst snd]. cbn [INR]. lra.
  - assert (X : Rltb x z = false) by (unfold Rltb; destruct (Rlt_dec x z); [contradiction|reflexivity]). rewrite X. destruct (Reqb x z) eqn:Y.
    + assert (x = z) by (unfold Reqb in Y; destruct (Req_EM_T x z); [assumption|discriminate]). subst. cbn [map]. rewrite !Rsum_cons. cbn [fst snd]. rewrite S_INR. lra.
    + cbn [map]. rewrite !Rsum_cons. rewrite IH. lra.
Qed.

(** Fitting stops where no allowed split is good enough, every split made the distinct values more likely by the given factor,
    and the data is at least as likely as under the uniform distribution from its minimum to its maximum. *)
Theorem C88_fit v k imp data : (1 <= k)%nat -> 0 < imp -> two_values data ->
  let xs := map fst (np_unique data) in let ws := map (fun xc => INR (snd xc)) (np_unique data) in
  exists leaves, (forall fuel, (2 * length data <= fuel)%nat -> fit v k imp fuel data None = Some (mixture_of v leaves)) /\
    (forall wi, In wi leaves -> exists b e, (b < e <= length xs)%nat /\ snd wi = leaf_interval xs b e /\ forall s, allowed k b e s -> ratio xs ws b s e <= imp) /\
    imp ^ (length leaves - 1) * Rprod (map (one_leaf xs 0 (length xs)) xs) <= Rprod (map (density_of leaves) xs) /\
    Rprod (map (one_leaf xs 0 (length xs)) data) <= Rprod (map (density_of leaves) data).
Proof.
  intros Hk Himp H2 xs ws. assert (Hn : (2 <= length xs)%nat) by now apply two_values_length.
  assert (Hx : ascending xs) by apply unique_ascending. assert (Hl : length ws = length xs) by (unfold ws, xs; now rewrite !map_length).
  assert (Hw : Forall (fun w => 0 < w) ws) by (unfold ws; apply Forall_map; eapply Forall_impl; [|apply unique_counts]; intros xc H; now apply lt_0_INR).
  set (n := length xs) in *. set (once := fun _ : nat => 1). set (all := fun i => nth i ws 0).
  destruct (loop_inv xs ws k imp (log_likelihood_without_split xs ws) (log_likelihood_of_split xs ws) v
    (fun l => (1 <= length l)%nat /\ progress xs ws once [(0, n)]%nat + INR (length l - 1) * ln imp <= progress xs ws once l /\ progress xs ws all [(0, n)]%nat <= progress xs ws all l)
    (fun be => forall s, allowed k (fst be) (snd be) s -> ratio xs ws (fst be) s (snd be) <= imp) n Hk ltac:(lra)) with (m := (2 * n)%nat) (queue := [(0, n)]%nat) (done := @nil (nat * nat)) (L := [(0, n)]%nat)
    as (done & L & C & P & (I0 & I1 & I2) & D & R').
  { intros l l' Pl (A0 & A1 & A2). rewrite (Permutation_length Pl) in A0, A1. rewrite <- !(progress_perm xs ws _ l l' Pl). auto. }
  { intros b e s rest Hb Hs E (A0 & A1 & A2). split; [cbn; lia|]. split.
    - pose proof (ratio_progress xs ws Hw Hx Hl Hn b s e rest ltac:(lia) ltac:(unfold n in *; lia)) as Rp. fold once in Rp. rewrite Rp. destruct (C88_decision xs ws Hw Hx Hl Hn k imp Hk ltac:(lra) b e Hb) as [(s' & _ & Hr & E')|[_ E']]; [|cbv zeta in E'; congruence].
      cbv zeta in E'. assert (Es : s' = s) by congruence. subst s'. pose proof (ln_increasing imp (ratio xs ws b s e) Himp Hr) as Hln. cbn [length] in *.
      replace (S (S (length rest)) - 1)%nat with (S (S (length rest) - 1)) by lia. rewrite S_INR. lra.
    - eapply Rle_trans; [exact A2|]. apply weighted_progress; auto; lia. }
  { intros b e Hb E s A. cbn [fst snd] in *. destruct (C88_decision xs ws Hw Hx Hl Hn k imp Hk ltac:(lra) b e Hb) as [(s' & _ & Hr & E')|[N _]]; [cbv zeta in E'; congruence|auto]. }
  { cbn. repeat split; auto; lia. }
  { reflexivity. }
  { unfold budget. cbn. lia. }
  { cbn [app length]. rewrite Nat.sub_diag. cbn [INR]. split; [lia|split; lra]. }
  { constructor. }
  assert (C0 : chain 0 n [(0, n)]%nat) by (cbn; repeat split; auto; lia).
  assert (Bd : forall be, In be done -> (fst be < snd be <= n)%nat) by (intros [b e] Hin; apply (Permutation_in _ P) in Hin; apply (chain_bounds _ _ _ _ _ C) in Hin; cbn; lia).
  assert (Dp : forall x, density_of (map (leaf_of xs ws) done) x = density_of (map (leaf_of xs ws) L) x) by (intros x; unfold density_of; apply Rsum_perm; now apply Permutation_map, Permutation_map).
  assert (One : forall x, density_of (map (leaf_of xs ws) [(0, n)]%nat) x = one_leaf xs 0 n x).
  { intros x. cbn [map]. rewrite density_cons, leaf_share by (auto; unfold n; lia). cbn [fst snd]. unfold density_of. unfold Rsum at 1. cbn [map fold_right]. pose proof (mass_pos ws Hw 0 n ltac:(lia) ltac:(lia)). unfold one_leaf. fold n. field. lra. }
  assert (At : forall x, In x xs -> exists i, (i < n)%nat /\ nth i xs 0 = x) by (intros x Hin; apply (In_nth _ _ 0) in Hin; exact Hin).
  destruct (chain_log xs ws Hw Hx Hl Hn once 0 L C) as [Q1 Q2]. destruct (chain_log xs ws Hw Hx Hl Hn once 0 _ C0) as [Q3 Q4].
  destruct (chain_log xs ws Hw Hx Hl Hn all 0 L C) as [_ Q5]. destruct (chain_log xs ws Hw Hx Hl Hn all 0 _ C0) as [_ Q6].
  assert (Pos1 : forall x, In x xs -> 0 < one_leaf xs 0 n x) by (intros x Hin; destruct (At x Hin) as (i & Hi & <-); rewrite <- One; apply Q3; lia).
  assert (Pos2 : forall x, In x xs -> 0 < density_of (map (leaf_of xs ws) done) x) by (intros x Hin; destruct (At x Hin) as (i & Hi & <-); rewrite Dp; apply Q1; lia).
  fold (progress xs ws once L) in Q2. fold (progress xs ws once [(0, n)]%nat) in Q4. fold (progress xs ws all L) in Q5. fold (progress xs ws all [(0, n)]%nat) in Q6.
  rewrite (progress_perm xs ws once done L P), <- Q2, <- Q4 in I1. rewrite (progress_perm xs ws all done L P), <- Q5, <- Q6 in I2.
  exists (map (leaf_of xs ws) done). split; [|split; [|split]].
  - intros fuel Hf. assert (Hle : (n <= length data)%nat) by (apply NoDup_incl_length; [apply ascending_NoDup, Hx|intros x Hin; now apply unique_In]).
    unfold fit, fit_with. fold xs ws. assert (E0 : match xs with [x] => Some (mkGraph [(0%nat, ULeaf (DDirac v x PInf))] []) | _ =>
      match induction_loop xs ws k imp (log_likelihood_without_split xs ws) (log_likelihood_of_split xs ws) v fuel [(0, length xs)]%nat (mkGraph [(0%nat, USum)] []) 1%nat with Some g => normalize g | None => None end end =
      match induction_loop xs ws k imp (log_likelihood_without_split xs ws) (log_likelihood_of_split xs ws) v fuel [(0, length xs)]%nat (mkGraph [(0%nat, USum)] []) 1%nat with Some g => normalize g | None => None end).
    { clearbody xs. destruct xs as [|x [|y l]]; [reflexivity|cbn in Hn; lia|reflexivity]. }
    etransitivity; [exact E0|]. specialize (R' fuel ltac:(lia)). rewrite layout_star in R' at 1. cbn [map length leaf_nodes leaf_edges] in R'.
    match goal with |- match ?X with _ => _ end = _ => replace X with (Some (layout (star (map (leaf_node xs ws v) done)))) by (symmetry; exact R') end.
    assert (E : map (leaf_node xs ws v) done = map (fun wi => (nlog (Fin (fst wi)), DUnif v (snd wi))) (map (leaf_of xs ws) done)) by (rewrite map_map; reflexivity).
    assert (Wp : forall be, In be done -> lw_ok (nlog (Fin (fst (leaf_of xs ws be)))) /\ wexp (nlog (Fin (fst (leaf_of xs ws be)))) = fst (leaf_of xs ws be)).
    { intros [b e] Hin. apply Bd in Hin. cbn [fst snd] in Hin. apply ModeFacts.wexp_nlog. rewrite leaf_share by (auto; unfold n in *; lia). cbn [fst]. left. apply Rdiv_lt_0_compat; apply mass_pos; auto; unfold n in *; lia. }
    rewrite star_normalize; [unfold mixture_of; now rewrite E| | |].
    + intros X. apply map_eq_nil in X. subst done. cbn in I0. lia.
    + rewrite map_map. apply Forall_map, Forall_forall. intros be Hin. now apply Wp.
    + rewrite !map_map. rewrite (Rsum_ext _ (fun be => fst (leaf_of xs ws be))) by (intros be Hin; now apply Wp).
      rewrite <- (total_weight xs ws Hl L C); [apply Rsum_perm; now apply Permutation_map|]. apply Rgt_not_eq. unfold cumulative. rewrite firstn_all. apply Rsum_pos; [|exact Hw]. intros E1. rewrite E1 in Hl. cbn in Hl. unfold n in *. lia.
  - intros wi Hin. apply in_map_iff in Hin. destruct Hin as ([b e] & <- & Hin). exists b, e. split; [apply (Bd (b, e) Hin)|]. split; [reflexivity|]. rewrite Forall_forall in D. apply (D (b, e) Hin).
  - rewrite map_length. apply Rprod_le; [exact Pos1|exact Pos2|now apply pow_lt|].
    rewrite <- !Rsum_by_index. fold n. rewrite ln_pow by exact Himp. unfold once in I1.
    rewrite (range_ext (fun i => ln (one_leaf xs 0 n (nth i xs 0))) (fun i => 1 * ln (density_of (map (leaf_of xs ws) [(0, n)]%nat) (nth i xs 0)))) by (intros; rewrite One; lra).
    rewrite (range_ext (fun i => ln (density_of (map (leaf_of xs ws) done) (nth i xs 0))) (fun i => 1 * ln (density_of (map (leaf_of xs ws) L) (nth i xs 0)))) by (intros; rewrite Dp; lra). unfold n in *. lra.
  - rewrite <- (Rmult_1_l (Rprod (map (one_leaf xs 0 n) data))). apply Rprod_le; [intros x Hin; apply Pos1; now apply unique_In|intros x Hin; apply Pos2; now apply unique_In|lra|].
    rewrite ln_1, <- !counted.
    assert (G : forall f : R -> R, Rsum (map (fun xc => INR (snd xc) * ln (f (fst xc))) (np_unique data)) = range (fun i => all i * ln (f (nth i xs 0))) 0 n).
    { intros f. unfold range, all, n, xs, ws. rewrite Nat.sub_0_r, map_length. clear. induction (np_unique data) as [|xc l IH]; [reflexivity|]. cbn [map length seq nth]. rewrite !Rsum_cons, IH. f_equal. rewrite <- seq_shift, map_map. reflexivity. }
    rewrite (G (one_leaf xs 0 n)), (G (density_of (map (leaf_of xs ws) done))).
    rewrite (range_ext (fun i => all i * ln (one_leaf xs 0 n (nth i xs 0))) (fun i => all i * ln (density_of (map (leaf_of xs ws) [(0, n)]%nat) (nth i xs 0)))) by (intros; now rewrite One).
    rewrite (range_ext (fun i => all i * ln (density_of (map (leaf_of xs ws) done) (nth i xs 0))) (fun i => all i * ln (density_of (map (leaf_of xs ws) L) (nth i xs 0)))) by (intros; now rewrite Dp). unfold n in *. lra.
Qed.

(** ** Cases *)
Example C88_case : exists leaves, (forall fuel, (8 <= fuel)%nat -> fit 0 2 (1/10) fuel [3; 1; 2; 1] None = Some (mixture_of 0 leaves)) /\
  Rprod (map (one_leaf (map fst (np_unique [3; 1; 2; 1])) 0 (length (map fst (np_unique [3; 1; 2; 1])))) [3; 1; 2; 1]) <= Rprod (map (density_of leaves) [3; 1; 2; 1]).
Proof.
  destruct (C88_fit 0 2 (1/10) [3; 1; 2; 1]) as (leaves & A & _ & _ & B); [lia|lra|exists 3, 1; cbn; repeat split; auto; lra|]. exists leaves. split; [exact A|exact B].
Qed.

(** Three of four values close together are split from the fourth where the rule about the number of values allows it. *)
Example C88_split_case : induce [0; 1; 2; 10] [1; 1; 1; 1] 2 1 (log_likelihood_without_split [0; 1; 2; 10] [1; 1; 1; 1]) (log_likelihood_of_split [0; 1; 2; 10] [1; 1; 1; 1]) 0 4 = Some (inl [(0, 2); (2, 4)])%nat.
Proof.
  assert (Hw : Forall (fun w => 0 < w) [1; 1; 1; 1]) by (repeat constructor; lra).
  assert (Hx : ascending [0; 1; 2; 10]) by (cbn; intuition; subst; lra).
  destruct (C88_decision [0; 1; 2; 10] [1; 1; 1; 1] Hw Hx eq_refl ltac:(cbn; lia) 2 1 ltac:(lia) ltac:(lra) 0 4 ltac:(cbn; lia)) as [(s & (A & _) & _ & ->)|[N _]].
  - unfold allowed in A. assert (s = 2%nat) by lia. now subst.
  - exfalso. specialize (N 2%nat ltac:(unfold allowed; lia)). unfold ratio, likelihood in N. cbn [Nat.sub seq map] in N.
    rewrite !(one_leaf_at [0; 1; 2; 10] [1; 1; 1; 1] Hx eq_refl ltac:(cbn; lia) 0 4) in N by (cbn; lia).
    rewrite !(two_leaves_at [0; 1; 2; 10] [1; 1; 1; 1] Hx eq_refl ltac:(cbn; lia) 0 2 4) in N by (cbn; lia).
    unfold mass, left_connecting_point, right_connecting_point, at_index in N. cbn in N. unfold Rsum in N. cbn in N.
    match type of N with ?t <= 1 => assert (t = 10000 / 2601) by (field) end. lra.
Qed.

Print Assumptions C88_without_split.
Print Assumptions C88_of_split.
Print Assumptions C88_decision.
Print Assumptions C88_fit.
