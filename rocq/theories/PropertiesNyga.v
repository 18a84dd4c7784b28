(** * Property C40: Nyga induction partitions the data range *)
From Coq Require Import List Arith Bool Lia ZArith Reals Lra Permutation.
From Verif Require Import Num Graph GraphFacts Spec SpecFacts Circuit EvalFacts Interval Dist DistFacts Simplify ModeFacts TreeLocal Layout LayoutFacts Star Nyga NygaFacts NygaGeometry.
Import ListNotations.
Local Set Bullet Behavior "Strict Subproofs".
Local Open Scope R_scope.

(** ** The specification *)
(** [leaves], weights with intervals, are quantiles of [data], where [mass] tells how much of the data has a property. *)
Record quantiles (data : list R) (k : nat) (mass : (R -> bool) -> R) (leaves : list (R * sint)) : Prop := {
  q_proper : forall wi, In wi leaves -> exists a b c, snd wi = mkSint (Fin a) (Fin b) true c /\ a < b;
  q_disjoint : disjointed (map snd leaves);
  q_cover : forall x, in_interval (map snd leaves) x = true <-> exists a b, In a data /\ In b data /\ a <= x <= b;
  q_points : forall x, In x data -> length (filter (fun wi => in_sint (snd wi) x) leaves) = 1%nat;
  q_samples : length leaves = 1%nat \/ forall wi, In wi leaves -> (k <= length (nodup Req_EM_T (filter (in_sint (snd wi)) data)))%nat;
  q_weights : forall wi, In wi leaves -> 0 < fst wi /\ fst wi = mass (in_sint (snd wi)) / mass (fun _ => true);
  q_total : Rsum (map fst leaves) = 1
}.

(** How often a property holds in the data. *)
Definition frequency (data : list R) (P : R -> bool) : R := INR (length (filter P data)).
(** The weight of a property, for the distinct values [xs] with weights [ws]. *)
Definition weight_of (xs ws : list R) (P : R -> bool) : R := Rsum (map (fun xw => if P (fst xw) then snd xw else 0) (combine xs ws)).

(** The circuit with these leaves. *)
Definition mixture_of (v : nat) (leaves : list (R * sint)) : graph dist := layout (star (map (fun wi => (nlog (Fin (fst wi)), DUnif v (snd wi))) leaves)).

Definition two_values (data : list R) : Prop := exists x y, In x data /\ In y data /\ x <> y.

(** For all ways to compute the likelihoods. *)
Definition C40_full : Prop := forall whole split v k imp data, (1 <= k)%nat -> two_values data ->
  exists leaves fuel0, quantiles data k (frequency data) leaves /\ forall fuel, (fuel0 <= fuel)%nat -> fit_with whole split v k imp fuel data None = Some (mixture_of v leaves).

(** ** The proof *)
Lemma disjointed_map {A} (f : A -> sint) L : NoDup L -> (forall a b x, In a L -> In b L -> in_sint (f a) x = true -> in_sint (f b) x = true -> a = b) -> disjointed (map f L).
Proof.
  induction 1 as [|a L Na N IH]; intros H; cbn [map disjointed]; [exact I|]. split; [|apply IH; intros; eapply H; eauto; now right].
  intros j Hj x [X Y]. apply in_map_iff in Hj. destruct Hj as (b & <- & Hb). apply Na. rewrite (H a b x); auto; [now left|now right].
Qed.

Lemma filter_one {A} (P : A -> bool) l a : NoDup l -> In a l -> P a = true -> (forall b, In b l -> P b = true -> b = a) -> length (filter P l) = 1%nat.
Proof.
  intros N Ha Pa U. assert (H : filter P l = [a]); [|now rewrite H]. induction N as [|b l Nb N IH]; [destruct Ha|]. cbn [filter].
  destruct Ha as [->|Ha].
  - rewrite Pa. f_equal. assert (E : forall c, In c (filter P l) -> False). { intros c Hc. apply filter_In in Hc. apply Nb. rewrite <- (U c); [tauto|right; tauto|tauto]. }
    destruct (filter P l) as [|c q]; [reflexivity|]. exfalso. apply (E c). now left.
  - destruct (P b) eqn:Pb; [exfalso; apply Nb; rewrite (U b); [exact Ha|now left|exact Pb]|]. apply IH; auto. intros c Hc. apply U. now right.
Qed.

Lemma two_values_length data : two_values data -> (2 <= length (map fst (np_unique data)))%nat.
Proof.
  intros (x & y & Hx & Hy & N). apply unique_In in Hx, Hy. destruct (map fst (np_unique data)) as [|a [|b l]]; [destruct Hx| |cbn; lia].
  destruct Hx as [<-|[]]. destruct Hy as [<-|[]]. contradiction.
Qed.

Lemma Rsum_pos l : l <> [] -> Forall (fun w => 0 < w) l -> 0 < Rsum l.
Proof.
  intros H F. destruct F as [|w l Hw F]; [contradiction|]. unfold Rsum. cbn [fold_right]. enough (0 <= fold_right Rplus 0 l) by lra. clear -F. induction F; cbn; lra.
Qed.

(** The induction on the distinct values with positive weights. *)
Lemma induction_quantiles whole split v k imp xs ws data : (1 <= k)%nat -> 0 <= imp -> ascending xs -> (forall x, In x xs <-> In x data) -> (2 <= length xs)%nat ->
  length ws = length xs -> Forall (fun w => 0 < w) ws ->
  exists leaves, quantiles data k (weight_of xs ws) leaves /\ forall fuel, (2 * length xs <= fuel)%nat ->
    (match induction_loop xs ws k imp whole split v fuel [(0, length xs)]%nat (mkGraph [(0%nat, USum)] []) 1%nat with None => None | Some g => normalize g end) = Some (mixture_of v leaves).
Proof.
  intros Hk Himp Hasc Hd Hn Hws Hpos. set (n := length xs) in *.
  destruct (loop_spec xs ws k imp whole split v Hk Himp n (2 * n) [(0, n)]%nat [] [(0, n)]%nat) as (done & L & C & B & P & R').
  { cbn. repeat split; auto; lia. }
  { now left. }
  { reflexivity. }
  { unfold budget. cbn. lia. }
  assert (Tot : 0 < cumulative ws (length ws)). { unfold cumulative. rewrite firstn_all. apply Rsum_pos; [|exact Hpos]. intros ->. cbn in Hws. lia. }
  assert (Nd : NoDup done) by (eapply Permutation_NoDup; [symmetry; exact P|eapply chain_NoDup; eauto]).
  assert (InL : forall be, In be done <-> In be L) by (intros be; split; apply Permutation_in; [exact P|symmetry; exact P]).
  assert (Bd : forall b e, In (b, e) done -> (b < e)%nat /\ (e <= n)%nat) by (intros b e Hin; apply InL in Hin; apply (chain_bounds _ _ _ _ _ C) in Hin; lia).
  assert (Wt : forall b e, (b < e)%nat -> (e <= n)%nat -> sum_weights ws b e = weight_of xs ws (in_sint (leaf_interval xs b e))) by (intros b e H He; apply leaf_weight; auto).
  assert (Wall : cumulative ws (length ws) = weight_of xs ws (fun _ => true)).
  { unfold cumulative, weight_of. rewrite firstn_all. f_equal. clear -Hws. revert ws Hws. subst n. induction xs as [|x xs IH]; intros [|w ws] E; try discriminate; [reflexivity|]. cbn [combine map snd]. f_equal. apply IH. now injection E. }
  exists (map (leaf_of xs ws) done). split; [constructor|].
  - intros wi Hin. apply in_map_iff in Hin. destruct Hin as ([b e] & <- & Hin). destruct (Bd b e Hin). destruct (leaf_interval_ok xs Hasc Hn b e) as (l & h & c & Hlh & E); auto. exists l, h, c. auto.
  - rewrite map_map. apply disjointed_map; [exact Nd|]. intros [b e] [b' e'] x H1 H2 X1 X2. apply InL in H1, H2. cbn [leaf_of snd fst] in *. apply (leaves_apart xs Hasc Hn L b e b' e' x); auto.
  - intros x. unfold in_interval. rewrite existsb_exists, map_map.
    assert (HX : (exists a b, In a data /\ In b data /\ a <= x <= b) <-> cut xs 0 <= x <= cut xs n).
    { unfold n. rewrite (hull xs Hasc Hn x). split; intros (a & b & Ha & Hb & Hx); exists a, b; split; try (split; [|exact Hx]); now apply Hd. }
    rewrite HX.
    split.
    + intros (i & Hi & Hx). apply in_map_iff in Hi. destruct Hi as ([b e] & <- & Hin). apply InL in Hin. cbn [leaf_of snd fst] in Hx. eapply leaves_within; eauto.
    + intros Hx. destruct (leaves_cover xs Hn 0 L x C ltac:(lia) Hx) as (b & e & Hin & Hl). exists (leaf_interval xs b e). split; [|exact Hl]. apply in_map_iff. exists (b, e). split; [reflexivity|now apply InL].
  - intros x Hx. apply Hd in Hx. apply (In_nth _ _ 0) in Hx. destruct Hx as (i & Hi & <-). destruct (chain_find 0 n L i C ltac:(lia)) as (b & e & Hin & Hbe). apply InL in Hin. destruct (Bd b e Hin).
    assert (E : forall l, length (filter (fun wi => in_sint (snd wi) (nth i xs 0)) (map (leaf_of xs ws) l)) = length (filter (fun be => in_sint (snd (leaf_of xs ws be)) (nth i xs 0)) l)).
    { clear. induction l as [|a l IH]; [reflexivity|]. cbn [map filter]. destruct (in_sint _ _); cbn [length]; congruence. }
    rewrite E. apply (filter_one _ _ (b, e)); auto.
    + cbn [leaf_of snd fst]. apply point_in_leaf; auto.
    + intros [b' e'] Hin' X. cbn [leaf_of snd fst] in X. apply InL in Hin, Hin'. symmetry. apply (leaves_apart xs Hasc Hn L b e b' e' (nth i xs 0)); auto. apply point_in_leaf; auto.
  - destruct B as [B|B].
    + left. rewrite map_length, (Permutation_length P), B. reflexivity.
    + right. intros wi Hin. apply in_map_iff in Hin. destruct Hin as ([b e] & <- & Hin). destruct (Bd b e Hin). apply InL in Hin. rewrite Forall_forall in B. specialize (B _ Hin). cbn [fst snd] in B. cbn [leaf_of snd fst].
      eapply Nat.le_trans; [|apply (leaf_points_count xs Hasc Hn ws); auto; intros; symmetry; auto]. lia.
  - intros wi Hin. apply in_map_iff in Hin. destruct Hin as ([b e] & <- & Hin). destruct (Bd b e Hin) as [B1 B2]. cbn [leaf_of fst snd]. rewrite <- Wt, <- Wall by auto. split; [|reflexivity].
    apply Rdiv_lt_0_compat; [|exact Tot]. rewrite Wt by auto. unfold weight_of.
    assert (Hb : (b < n)%nat) by lia. apply Rsum_nonneg_pos; [rewrite Forall_map, Forall_forall|rewrite Exists_map, Exists_exists; exists (nth b (combine xs ws) (0, 0)); split].
    + intros [x w] Hxw. cbn [fst snd]. destruct (in_sint _ _); [|lra]. apply in_combine_r in Hxw. rewrite Forall_forall in Hpos. left. auto.
    + apply nth_In. rewrite combine_length. fold n. lia.
    + rewrite combine_nth by auto. cbn [fst snd]. rewrite (proj2 (point_in_leaf xs Hasc Hn b e b B1 B2 Hb)) by lia. rewrite Forall_forall in Hpos. apply Hpos, nth_In. lia.
  - rewrite map_map. rewrite <- (total_weight xs ws Hws L C ltac:(lra)). apply Rsum_perm. now apply Permutation_map.
  - intros fuel Hf. specialize (R' fuel Hf). rewrite layout_star in R' at 1. cbn [map length leaf_nodes leaf_edges] in R'.
    match goal with |- match ?X with _ => _ end = _ => replace X with (Some (layout (star (map (leaf_node xs ws v) done)))) by (symmetry; exact R') end.
    assert (E : map (leaf_node xs ws v) done = map (fun wi => (nlog (Fin (fst wi)), DUnif v (snd wi))) (map (leaf_of xs ws) done)) by (rewrite map_map; reflexivity).
    assert (Wp : forall be, In be done -> lw_ok (nlog (Fin (fst (leaf_of xs ws be)))) /\ wexp (nlog (Fin (fst (leaf_of xs ws be)))) = fst (leaf_of xs ws be)).
    { intros [b e] Hin. destruct (Bd b e Hin). apply wexp_nlog. cbn [leaf_of fst snd]. rewrite Wt by auto. unfold Rdiv. apply Rmult_le_pos; [|left; now apply Rinv_0_lt_compat].
      unfold weight_of. apply Rsum_nonneg. rewrite Forall_map, Forall_forall. intros [x w] Hxw. cbn [fst snd]. destruct (in_sint _ _); [|lra]. apply in_combine_r in Hxw. rewrite Forall_forall in Hpos. left. auto. }
    rewrite star_normalize; [unfold mixture_of; now rewrite E| | |].
    + intros X. apply map_eq_nil in X. subst done. apply Permutation_nil in P. subst L. cbn in C. lia.
    + rewrite map_map. apply Forall_map, Forall_forall. intros be Hin. now apply Wp.
    + rewrite !map_map. rewrite (Rsum_ext _ (fun be => fst (leaf_of xs ws be))) by (intros be Hin; now apply Wp).
      rewrite <- (total_weight xs ws Hws L C ltac:(lra)). apply Rsum_perm. now apply Permutation_map.
Qed.

Lemma unique_mass data P : weight_of (map fst (np_unique data)) (map (fun xc => INR (snd xc)) (np_unique data)) P = frequency data P.
Proof.
  unfold weight_of, frequency. rewrite <- unique_selected. unfold selected. f_equal. induction (np_unique data) as [|xc l IH]; [reflexivity|]. cbn [map combine fst snd]. f_equal. exact IH.
Qed.

Lemma quantiles_mass data k m m' leaves : (forall P, m P = m' P) -> quantiles data k m leaves -> quantiles data k m' leaves.
Proof. intros E [A B C D F G H]. constructor; auto. intros wi Hin. rewrite <- !E. auto. Qed.

(** Fitting terminates and gives quantiles of the data, for every way to compute the likelihoods, if the threshold for the
    improvement is not negative. *)
Theorem C40_nyga_partial whole split v k imp data : (1 <= k)%nat -> 0 <= imp -> two_values data ->
  exists leaves, quantiles data k (frequency data) leaves /\
    forall fuel, (2 * length data <= fuel)%nat -> fit_with whole split v k imp fuel data None = Some (mixture_of v leaves).
Proof.
  intros Hk Himp H2. assert (Hn := two_values_length data H2).
  destruct (induction_quantiles (whole (map fst (np_unique data)) (map (fun xc => INR (snd xc)) (np_unique data))) (split (map fst (np_unique data)) (map (fun xc => INR (snd xc)) (np_unique data))) v k imp
    (map fst (np_unique data)) (map (fun xc => INR (snd xc)) (np_unique data)) data Hk Himp (unique_ascending data) (unique_In data) Hn) as (leaves & Q & F).
  - now rewrite !map_length.
  - apply Forall_map. eapply Forall_impl; [|apply unique_counts]. intros xc H. now apply lt_0_INR.
  - exists leaves. split; [eapply quantiles_mass; [|exact Q]; intros P; apply unique_mass|]. intros fuel Hf.
    assert (Hl : (length (map fst (np_unique data)) <= length data)%nat) by (apply NoDup_incl_length; [apply ascending_NoDup, unique_ascending|intros x Hx; now apply unique_In]).
    specialize (F fuel ltac:(lia)). unfold fit_with. destruct (map fst (np_unique data)) as [|x [|y l]]; [cbn in Hn; lia|cbn in Hn; lia|exact F].
Qed.
Print Assumptions C40_nyga_partial.

(** With weights for the distinct values. *)
Theorem C40_nyga_weights_partial whole split v k imp data ws : (1 <= k)%nat -> 0 <= imp -> two_values data ->
  length ws = length (nodup Req_EM_T data) -> Forall (fun w => 0 < w) ws ->
  exists xs leaves, ascending xs /\ (forall x, In x xs <-> In x data) /\ quantiles data k (weight_of xs ws) leaves /\
    forall fuel, (2 * length data <= fuel)%nat -> fit_with whole split v k imp fuel data (Some ws) = Some (mixture_of v leaves).
Proof.
  intros Hk Himp H2 Hl Hp. assert (Hn := two_values_length data H2). set (xs := map fst (np_unique data)) in *.
  assert (El : length xs = length (nodup Req_EM_T data)).
  { apply Permutation_length, NoDup_Permutation; [apply ascending_NoDup, unique_ascending|apply NoDup_nodup|]. intros x. rewrite nodup_In. apply unique_In. }
  destruct (induction_quantiles (whole xs ws) (split xs ws) v k imp xs ws data Hk Himp (unique_ascending data) (unique_In data) Hn) as (leaves & Q & F); auto; [congruence|].
  exists xs, leaves. split; [apply unique_ascending|]. split; [apply unique_In|]. split; [exact Q|]. intros fuel Hf.
  assert (Hle : (length xs <= length data)%nat) by (apply NoDup_incl_length; [apply ascending_NoDup, unique_ascending|intros x Hx; now apply unique_In]).
  specialize (F fuel ltac:(lia)). unfold fit_with. fold xs. destruct xs as [|x [|y l]]; [cbn in Hn; lia|cbn in Hn; lia|exact F].
Qed.
Print Assumptions C40_nyga_weights_partial.

(** With a negative threshold, data that cannot be split make fitting fail. *)
Lemma unique_01 : np_unique [0; 1] = [(0, 1%nat); (1, 1%nat)].
Proof. unfold np_unique. cbn [fold_right uniq_insert]. destruct (Rltb_spec 0 1); [reflexivity|lra]. Qed.

Theorem C40_refuted : ~ C40_full.
Proof.
  intros H. destruct (H (fun _ _ _ _ => Fin 0) (fun _ _ _ _ _ => Fin 0) 0%nat 2%nat (-1) [0; 1]) as (leaves & fuel & _ & F); [lia|exists 0, 1; cbn; repeat split; auto; lra|].
  specialize (F (S fuel) ltac:(lia)). unfold fit_with in F. rewrite unique_01 in F. cbn [map fst snd length induction_loop] in F. unfold induce, compute_best_split, improvement_is_good_enough in F. cbn in F.
  destruct (Rltb_spec (-1) 0); [discriminate|lra].
Qed.
Print Assumptions C40_refuted.

(** ** Case *)
Example C40_case : exists leaves, quantiles [3; 1; 2; 1] 2 (frequency [3; 1; 2; 1]) leaves /\
  forall fuel, (8 <= fuel)%nat -> fit 0 2 (1/10) fuel [3; 1; 2; 1] None = Some (mixture_of 0 leaves).
Proof. apply C40_nyga_partial; [lia|lra|exists 3, 1; cbn; repeat split; auto; lra]. Qed.
