(** * RegionFacts: the graphs that random splitting builds *)
From Coq Require Import List Arith Bool Lia Permutation Sorted Reals ZArith.
From Verif Require Import Num Graph Circuit EvalFacts BayesNet PropertiesJptParams RegionGraph.
Import ListNotations.
Local Set Bullet Behavior "Strict Subproofs".
Local Open Scope nat_scope.

(** ** Splitting arrays *)
Lemma cut_spec {A} sizes : forall l : list A, list_sum sizes = length l -> concat (cut sizes l) = l /\ map (@length A) (cut sizes l) = sizes.
Proof.
  induction sizes as [|s sizes IH]; intros l H; cbn [cut concat map].
  - destruct l; [split; reflexivity|discriminate].
  - change (list_sum (s :: sizes)) with (s + list_sum sizes) in H. destruct (IH (skipn s l)) as [A1 A2]; [rewrite skipn_length; lia|]. rewrite A1, A2, firstn_skipn, firstn_length. split; [reflexivity|]. f_equal. lia.
Qed.

Lemma list_sum_repeat x n : list_sum (repeat x n) = n * x.
Proof. induction n as [|n IH]; [reflexivity|]. cbn [repeat]. change (list_sum (?a :: ?b)) with (a + list_sum b). rewrite IH. lia. Qed.

Definition split_sizes (n k : nat) : list nat := repeat (S (n / k)) (n mod k) ++ repeat (n / k) (k - n mod k).

Lemma split_sizes_spec n k : k <> 0 -> list_sum (split_sizes n k) = n /\ length (split_sizes n k) = k /\ (forall s, In s (split_sizes n k) -> n / k <= s <= S (n / k)) /\ In (n / k) (split_sizes n k).
Proof.
  intros Hk. pose proof (Nat.mod_upper_bound n k Hk). pose proof (Nat.div_mod n k Hk) as D. unfold split_sizes. repeat split.
  - rewrite list_sum_app, !list_sum_repeat. nia.
  - rewrite app_length, !repeat_length. lia.
  - apply in_app_or in H0. destruct H0 as [X|X]; apply repeat_spec in X; lia.
  - apply in_app_or in H0. destruct H0 as [X|X]; apply repeat_spec in X; lia.
  - apply in_or_app. right. destruct (k - n mod k) eqn:E; [lia|now left].
Qed.

Lemma array_split_spec {A} (l : list A) k : k <> 0 -> exists parts, array_split l k = Some parts /\ concat parts = l /\ map (@length A) parts = split_sizes (length l) k.
Proof.
  intros Hk. destruct k as [|k]; [contradiction|]. eexists. split; [reflexivity|]. apply cut_spec. now apply split_sizes_spec.
Qed.

(** ** Random partitions *)
Definition shuffles (shuffle : list nat -> list nat) : Prop := forall l, Permutation (shuffle l) l.

Lemma strongly_sorted_NoDup l : StronglySorted lt l -> NoDup l.
Proof. induction 1 as [|a l H IH F]; constructor; auto. intros X. rewrite Forall_forall in F. specialize (F a X). lia. Qed.

Lemma sset_perm l : NoDup l -> Permutation (sset_of l) l.
Proof. intros H. apply NoDup_Permutation; auto; [apply strongly_sorted_NoDup, sset_of_sorted|apply sset_of_In]. Qed.

Lemma nodup_concat_part {A} (ll : list (list A)) l : NoDup (concat ll) -> In l ll -> NoDup l.
Proof.
  induction ll as [|a ll IH]; intros H Hin; [destruct Hin|]. cbn in H. destruct Hin as [->|Hin]; [|apply IH; auto].
  - clear -H. induction l as [|x l IHl]; constructor; cbn in H; inversion H; subst; auto. intros X. apply H2, in_or_app. now left.
  - clear -H. induction a as [|x a IHa]; auto. cbn in H. inversion H; auto.
Qed.

Lemma random_partition_spec shuffle vs k : shuffles shuffle -> NoDup vs -> k <> 0 ->
  exists ws, random_partition shuffle vs k = Some ws /\ Permutation (concat ws) vs /\ map (@length nat) ws = split_sizes (length vs) k /\ Forall (StronglySorted lt) ws.
Proof.
  intros Hs Hn Hk. unfold random_partition. destruct (array_split_spec (shuffle (seq 0 (length vs))) k Hk) as (parts & -> & Hc & Hl).
  assert (Hp : Permutation (concat parts) (seq 0 (length vs))) by (rewrite Hc; apply Hs).
  set (pick := fun part : list nat => map (fun i => nth i vs 0) part).
  assert (Hpick : mapM (fun split => match mapM (nth_error vs) split with None => None | Some vs => Some (sset_of vs) end) parts = Some (map (fun part => sset_of (pick part)) parts)).
  { apply mapM_some. intros part Hin. rewrite (mapM_some _ (fun i => nth i vs 0)); [reflexivity|]. intros i Hi. apply nth_error_nth'. assert (X : In i (seq 0 (length vs))) by (apply (Permutation_in _ Hp), in_concat; eauto). apply in_seq in X. lia. }
  rewrite Hpick. eexists. split; [reflexivity|].
  assert (Hall : Permutation (concat (map pick parts)) vs).
  { unfold pick. rewrite <- concat_map. rewrite (Permutation_map _ Hp). clear. induction vs as [|v vs IH]; [reflexivity|]. cbn [length seq map]. change (nth 0 (v :: vs) 0) with v. constructor. rewrite <- seq_shift, map_map. exact IH. }
  assert (Hnd : NoDup (concat (map pick parts))) by (apply (Permutation_NoDup (Permutation_sym Hall)); exact Hn).
  repeat split.
  - rewrite <- Hall. clear Hpick Hall Hp Hl Hc. induction parts as [|part parts IH]; [reflexivity|]. cbn [map concat] in *. rewrite IH.
    + apply Permutation_app_tail. apply sset_perm. apply (nodup_concat_part (pick part :: map pick parts)); [exact Hnd|now left].
    + clear -Hnd. induction (pick part) as [|x l IHl]; auto. cbn in Hnd. inversion Hnd; auto.
  - rewrite map_map. rewrite <- (Permutation_length (Hs (seq 0 (length vs)))) in Hl at 1 || idtac. rewrite (Permutation_length (Hs (seq 0 (length vs)))), seq_length in Hl. rewrite <- Hl. apply map_ext_in. intros part Hin.
    rewrite (Permutation_length (sset_perm (pick part) (nodup_concat_part (map pick parts) _ Hnd (in_map pick _ _ Hin)))). unfold pick. apply map_length.
  - apply Forall_map, Forall_forall. intros part _. apply sset_of_sorted.
Qed.

(** ** Batches of new nodes *)
Definition extend (g : rgraph) (ns : list rnode) (es : list (nat * nat)) : rgraph := mkRG (r_nodes g ++ ns) (r_edges g ++ es).

Lemma successors_extend g ns es u : successors (extend g ns es) u = successors g u ++ map snd (filter (fun e => fst e =? u) es).
Proof. unfold successors, extend. cbn [r_edges]. now rewrite filter_app, map_app. Qed.

Lemma add_leaves p vs : forall g, fold_left (fun g v => add_child p (Region [v]) g) vs g =
  extend g (map (fun v => Region [v]) vs) (map (fun i => (p, length (r_nodes g) + i)) (seq 0 (length vs))).
Proof.
  induction vs as [|v vs IH]; intros g; cbn [fold_left map length seq].
  - unfold extend. rewrite !app_nil_r. now destruct g.
  - rewrite IH. unfold extend, add_child. cbn [r_nodes r_edges]. rewrite <- !app_assoc. cbn [app]. rewrite app_length. cbn [length]. rewrite Nat.add_0_r. f_equal. f_equal. f_equal. rewrite <- seq_shift, map_map. apply map_ext. intros i. f_equal. lia.
Qed.

Definition region_edges (p N n : nat) : list (nat * nat) := concat (map (fun i => [(p, N + 2 * i); (N + 2 * i, N + 2 * i + 1)]) (seq 0 n)).
Definition region_nodes (ws : list (list nat)) : list rnode := concat (map (fun w => [Region w; Partition]) ws).

Lemma add_regions_spec p level ws : forall g q, add_regions p level ws g q =
  (extend g (region_nodes ws) (region_edges p (length (r_nodes g)) (length ws)),
   q ++ map (fun i => mkRItem (length (r_nodes g) + 2 * i) level (length (r_nodes g) + 2 * i + 1)) (seq 0 (length ws))).
Proof.
  induction ws as [|w ws IH]; intros g q; cbn [add_regions].
  - unfold extend, region_nodes, region_edges. cbn. rewrite !app_nil_r. now destruct g.
  - rewrite IH. unfold extend, add_child, region_nodes, region_edges. cbn [r_nodes r_edges map concat length seq]. rewrite !app_length. cbn [length]. rewrite <- !app_assoc. cbn [app]. rewrite !Nat.mul_0_r, !Nat.add_0_r. f_equal.
    + f_equal. f_equal. do 2 f_equal. rewrite <- seq_shift, map_map. f_equal. apply map_ext. intros i. replace (length (r_nodes g) + 2 * S i) with (length (r_nodes g) + 1 + 1 + 2 * i) by lia. reflexivity.
    + f_equal. cbn [map]. f_equal; [f_equal; lia|]. rewrite <- seq_shift, map_map. apply map_ext. intros i. f_equal; lia.
Qed.

Lemma region_nodes_length ws : length (region_nodes ws) = 2 * length ws.
Proof. unfold region_nodes. induction ws as [|w ws IH]; [reflexivity|]. cbn [map concat]. rewrite app_length, IH. cbn. lia. Qed.

Lemma region_nodes_even ws : forall i w, nth_error ws i = Some w -> nth_error (region_nodes ws) (2 * i) = Some (Region w).
Proof. unfold region_nodes. induction ws as [|w' ws IH]; intros [|i] w H; cbn in H; try discriminate; [now inversion H|]. replace (2 * S i) with (S (S (2 * i))) by lia. cbn [map concat nth_error app]. now apply IH. Qed.
Lemma region_nodes_odd ws : forall i, i < length ws -> nth_error (region_nodes ws) (2 * i + 1) = Some Partition.
Proof. unfold region_nodes. induction ws as [|w' ws IH]; intros i H; cbn in H; [lia|]. destruct i as [|i]; [reflexivity|]. replace (2 * S i + 1) with (S (S (2 * i + 1))) by lia. cbn [map concat nth_error app]. apply IH. lia. Qed.

Lemma region_edges_In p N n e : In e (region_edges p N n) <-> exists i, i < n /\ (e = (p, N + 2 * i) \/ e = (N + 2 * i, N + 2 * i + 1)).
Proof.
  unfold region_edges. rewrite in_concat. split.
  - intros (l & Hl & He). apply in_map_iff in Hl. destruct Hl as (i & <- & Hi). apply in_seq in Hi. exists i. split; [lia|]. destruct He as [<-|[<-|[]]]; auto.
  - intros (i & Hi & He). exists [(p, N + 2 * i); (N + 2 * i, N + 2 * i + 1)]. split; [apply in_map_iff; exists i; split; [reflexivity|apply in_seq; lia]|]. destruct He as [-> | ->]; [now left|right; now left].
Qed.

Lemma region_edges_snd p N n : map snd (region_edges p N n) = seq N (2 * n).
Proof.
  unfold region_edges. assert (G : forall s, map snd (concat (map (fun i => [(p, N + 2 * i); (N + 2 * i, N + 2 * i + 1)]) (seq s n))) = seq (N + 2 * s) (2 * n)).
  { induction n as [|n IH]; intros s; [reflexivity|]. cbn [seq map concat app]. rewrite IH. replace (2 * S n) with (S (S (2 * n))) by lia. cbn [seq snd]. f_equal. f_equal; [lia|]. f_equal. lia. }
  rewrite G. f_equal. lia.
Qed.

Lemma region_edges_p p N n : p < N -> map snd (filter (fun e => fst e =? p) (region_edges p N n)) = map (fun i => N + 2 * i) (seq 0 n).
Proof.
  intros Hp. unfold region_edges. assert (G : forall s, map snd (filter (fun e => fst e =? p) (concat (map (fun i => [(p, N + 2 * i); (N + 2 * i, N + 2 * i + 1)]) (seq s n)))) = map (fun i => N + 2 * i) (seq s n)).
  { induction n as [|n IH]; intros s; [reflexivity|]. cbn [seq map concat app filter fst]. rewrite Nat.eqb_refl. destruct (Nat.eqb_spec (N + 2 * s) p); [lia|]. cbn [map snd]. f_equal. apply IH. }
  apply G.
Qed.
