(** * RegionInv: invariants of random splitting *)
From Coq Require Import List Arith Bool Lia Permutation Sorted Reals ZArith.
From Verif Require Import Num Graph Circuit EvalFacts BayesNet SimplifyFacts PropertiesJptParams RegionGraph RegionFacts.
Import ListNotations.
Local Set Bullet Behavior "Strict Subproofs".
Local Open Scope nat_scope.

Definition is_region (g : rgraph) (u : nat) (vs : list nat) : Prop := nth_error (r_nodes g) u = Some (Region vs).
Definition is_partition (g : rgraph) (u : nat) : Prop := nth_error (r_nodes g) u = Some Partition.

(** What the children of a partition of the variables [vs] look like: single variables or [k] parts of about the same size. *)
Definition split_ok (k : nat) (g : rgraph) (vs cs : list nat) : Prop :=
  cs = [] \/ exists ws, Forall2 (is_region g) cs ws /\ Permutation (concat ws) vs /\
  ((Forall (fun c => successors g c = []) cs /\ ws = map (fun v => [v]) vs) \/
   (Forall (fun c => successors g c <> []) cs /\ map (@length nat) ws = split_sizes (length vs) k)).

(** One step of the loop. *)
Record grows (k : nat) (g : rgraph) (it : item) (g' : rgraph) (q' : list item) (vs : list nat) (ns : list rnode) (es : list (nat * nat)) : Prop := mkGrows {
  gr_region : is_region g (i_region it) vs;
  gr_eq : g' = extend g ns es;
  gr_sources : forall e, In e es -> (fst e = i_partition it \/ length (r_nodes g) <= fst e) /\ fst e < snd e;
  gr_targets : map snd es = seq (length (r_nodes g)) (length ns);
  gr_kinds : forall e, In e es -> (is_partition g' (fst e) /\ exists w, is_region g' (snd e) w) \/ ((exists w, is_region g' (fst e) w) /\ is_partition g' (snd e));
  gr_queue : forall it', In it' q' -> length (r_nodes g) <= i_partition it' /\ is_partition g' (i_partition it') /\ In (i_region it', i_partition it') es /\ successors g' (i_partition it') = [] /\
     exists w, is_region g' (i_region it') w /\ S (i_level it') = i_level it /\ length vs / k <= length w;
  gr_nodup : NoDup (map i_partition q');
  gr_all : forall u, length (r_nodes g) <= u -> is_partition g' u -> In u (map i_partition q');
  gr_sorted : forall u w, length (r_nodes g) <= u -> is_region g' u w -> StronglySorted lt w /\ incl w vs;
  gr_split : split_ok k g' vs (successors g' (i_partition it));
  gr_small : i_level it <> 0 -> length vs <> 1 -> exists it' w, In it' q' /\ is_region g' (i_region it') w /\ length w = length vs / k;
  gr_childless : successors g' (i_partition it) = [] <-> (length vs = 1 \/ (i_level it = 0 /\ length vs = 0));
  gr_count : length q' <= k }.

Record rinv (n k : nat) (g : rgraph) (q : list item) : Prop := mkRinv {
  ri_root : is_region g 0 (seq 0 n);
  ri_edges : forall a b, In (a, b) (r_edges g) -> a < b < length (r_nodes g);
  ri_targets : NoDup (map snd (r_edges g));
  ri_cover : forall u, 0 < u -> u < length (r_nodes g) -> In u (map snd (r_edges g));
  ri_kinds : forall a b, In (a, b) (r_edges g) -> (is_partition g a /\ exists w, is_region g b w) \/ ((exists w, is_region g a w) /\ is_partition g b);
  ri_sorted : forall u w, is_region g u w -> StronglySorted lt w /\ incl w (seq 0 n);
  ri_queue : forall it, In it q -> is_partition g (i_partition it) /\ In (i_region it, i_partition it) (r_edges g) /\ successors g (i_partition it) = [] /\ exists w, is_region g (i_region it) w;
  ri_nodup : NoDup (map i_partition q);
  ri_done : forall r p vs, In (r, p) (r_edges g) -> is_region g r vs -> is_partition g p -> ~ In p (map i_partition q) -> split_ok k g vs (successors g p) }.

Lemma nth_extend g ns es u x : nth_error (r_nodes g) u = Some x -> nth_error (r_nodes (extend g ns es)) u = Some x.
Proof. intros H. cbn. rewrite nth_error_app1; [exact H|]. apply nth_error_Some. congruence. Qed.
Lemma nth_extend_old g ns es u : u < length (r_nodes g) -> nth_error (r_nodes (extend g ns es)) u = nth_error (r_nodes g) u.
Proof. intros H. cbn. now rewrite nth_error_app1. Qed.
Lemma nth_extend_new g ns es i : nth_error (r_nodes (extend g ns es)) (length (r_nodes g) + i) = nth_error ns i.
Proof. cbn. rewrite nth_error_app2 by lia. f_equal. lia. Qed.

Lemma filter_none {A} (f : A -> bool) l : (forall x, In x l -> f x = false) -> filter f l = [].
Proof. induction l as [|a l IH]; intros H; [reflexivity|]. cbn. rewrite H by now left. apply IH. intros x Hx. apply H. now right. Qed.

Lemma is_partition_lt g u : is_partition g u -> u < length (r_nodes g).
Proof. intros H. apply nth_error_Some. unfold is_partition in H. congruence. Qed.
Lemma is_region_lt g u w : is_region g u w -> u < length (r_nodes g).
Proof. intros H. apply nth_error_Some. unfold is_region in H. congruence. Qed.
Lemma region_not_partition g u w : is_region g u w -> is_partition g u -> False.
Proof. unfold is_region, is_partition. congruence. Qed.

Section Step.
Context {n k : nat} {g : rgraph} {it : item} {q : list item} {g' : rgraph} {q' : list item} {vs : list nat} {ns : list rnode} {es : list (nat * nat)}.
Hypothesis Hi : rinv n k g (it :: q).
Hypothesis Hg : grows k g it g' q' vs ns es.

Lemma grows_successors u : u < length (r_nodes g) -> u <> i_partition it -> successors g' u = successors g u.
Proof.
  intros Hu Hn. rewrite (gr_eq _ _ _ _ _ _ _ _ Hg), successors_extend. rewrite filter_none; [apply app_nil_r|]. intros e He. destruct (gr_sources _ _ _ _ _ _ _ _ Hg e He) as [[X|X] _]; apply Nat.eqb_neq; lia.
Qed.

Lemma grows_region u w : is_region g u w -> is_region g' u w.
Proof. intros H. rewrite (gr_eq _ _ _ _ _ _ _ _ Hg). now apply nth_extend. Qed.
Lemma grows_partition u : is_partition g u -> is_partition g' u.
Proof. intros H. rewrite (gr_eq _ _ _ _ _ _ _ _ Hg). now apply nth_extend. Qed.
Lemma grows_old_region u w : u < length (r_nodes g) -> is_region g' u w -> is_region g u w.
Proof. intros Hu H. rewrite (gr_eq _ _ _ _ _ _ _ _ Hg) in H. unfold is_region in *. now rewrite nth_extend_old in H. Qed.
Lemma grows_old_partition u : u < length (r_nodes g) -> is_partition g' u -> is_partition g u.
Proof. intros Hu H. rewrite (gr_eq _ _ _ _ _ _ _ _ Hg) in H. unfold is_partition in *. now rewrite nth_extend_old in H. Qed.

Lemma it_partition : is_partition g (i_partition it).
Proof. now apply (ri_queue _ _ _ _ Hi it (or_introl eq_refl)). Qed.

Lemma successors_region u c : In c (successors g u) -> In (u, c) (r_edges g).
Proof. unfold successors. intros H. apply in_map_iff in H. destruct H as ([a b] & <- & H). apply filter_In in H. destruct H as [H E]. apply Nat.eqb_eq in E. cbn in E. now subst. Qed.

Lemma split_ok_grows vs' p : is_partition g p -> p <> i_partition it -> split_ok k g vs' (successors g p) -> split_ok k g' vs' (successors g' p).
Proof.
  intros Hp Hn H. rewrite grows_successors; [|now apply is_partition_lt|exact Hn]. destruct H as [E|(ws & H1 & H2 & H3)]; [now left|]. right. exists ws. split; [|split; [exact H2|]].
  - clear -H1 Hg. induction H1; constructor; auto. now apply grows_region.
  - assert (Hc : forall c, In c (successors g p) -> successors g' c = successors g c).
    { intros c Hc. apply successors_region in Hc. apply grows_successors; [apply (ri_edges _ _ _ _ Hi) in Hc; lia|]. intros ->. destruct (ri_kinds _ _ _ _ Hi _ _ Hc) as [[_ [w Hw]]|[[w Hw] _]]; [exact (region_not_partition _ _ _ Hw it_partition)|exact (region_not_partition _ _ _ Hw Hp)]. }
    destruct H3 as [[H3 H4]|[H3 H4]]; [left|right]; (split; [|exact H4]); rewrite Forall_forall in *; intros c Hin; rewrite Hc by exact Hin; now apply H3.
Qed.

Lemma rinv_grows : rinv n k g' (q ++ q').
Proof.
  assert (Hlen : length (r_nodes g') = length (r_nodes g) + length ns) by (rewrite (gr_eq _ _ _ _ _ _ _ _ Hg); cbn; apply app_length).
  assert (Hedges : r_edges g' = r_edges g ++ es) by (rewrite (gr_eq _ _ _ _ _ _ _ _ Hg); reflexivity).
  assert (Hbound : forall u, u < length (r_nodes g') -> u < length (r_nodes g) \/ length (r_nodes g) <= u) by (intros; lia).
  constructor.
  - apply grows_region, (ri_root _ _ _ _ Hi).
  - intros a b H. rewrite Hedges in H. apply in_app_or in H. destruct H as [H|H].
    + apply (ri_edges _ _ _ _ Hi) in H. lia.
    + assert (X : In b (map snd es)) by (apply in_map_iff; exists (a, b); auto). rewrite (gr_targets _ _ _ _ _ _ _ _ Hg) in X. apply in_seq in X. apply (gr_sources _ _ _ _ _ _ _ _ Hg) in H. cbn in H. lia.
  - rewrite Hedges, map_app. rewrite (gr_targets _ _ _ _ _ _ _ _ Hg). apply SimplifyFacts.NoDup_app_intro.
    + apply (ri_targets _ _ _ _ Hi).
    + apply seq_NoDup.
    + intros u H1 H2. apply in_seq in H2. apply in_map_iff in H1. destruct H1 as ([a b] & <- & H1). apply (ri_edges _ _ _ _ Hi) in H1. cbn in *. lia.
  - intros u H0 Hu. rewrite Hedges, map_app. apply in_or_app. destruct (Hbound u Hu); [left; now apply (ri_cover _ _ _ _ Hi)|right]. rewrite (gr_targets _ _ _ _ _ _ _ _ Hg). apply in_seq. lia.
  - intros a b H. rewrite Hedges in H. apply in_app_or in H. destruct H as [H|H].
    + destruct (ri_kinds _ _ _ _ Hi _ _ H) as [[X [w Y]]|[[w X] Y]]; [left|right]; eauto using grows_partition, grows_region.
    + exact (gr_kinds _ _ _ _ _ _ _ _ Hg _ H).
  - intros u w H. destruct (Hbound u (is_region_lt _ _ _ H)) as [X|X].
    + apply (ri_sorted _ _ _ _ Hi u). now apply grows_old_region.
    + destruct (gr_sorted _ _ _ _ _ _ _ _ Hg u w X H) as [Y1 Y2]. split; [exact Y1|]. destruct (ri_sorted _ _ _ _ Hi _ _ (gr_region _ _ _ _ _ _ _ _ Hg)) as [_ Y3]. intros v Hv. apply Y3, Y2, Hv.
  - intros it' H. apply in_app_or in H. destruct H as [H|H].
    + destruct (ri_queue _ _ _ _ Hi it' (or_intror H)) as (X1 & X2 & X3 & w & X4). split; [now apply grows_partition|]. split; [rewrite Hedges; apply in_or_app; now left|]. split; [|exists w; now apply grows_region].
      rewrite grows_successors; [exact X3|now apply is_partition_lt|]. intros E. pose proof (ri_nodup _ _ _ _ Hi) as N. cbn in N. inversion N as [|? ? N1 N2]; subst. apply N1. rewrite <- E. now apply in_map.
    + destruct (gr_queue _ _ _ _ _ _ _ _ Hg it' H) as (X0 & X1 & X2 & X3 & w & X4 & _). split; [exact X1|]. split; [rewrite Hedges; apply in_or_app; now right|]. split; [exact X3|]. now exists w.
  - rewrite map_app. pose proof (ri_nodup _ _ _ _ Hi) as N. cbn in N. inversion N as [|? ? N1 N2]; subst. apply SimplifyFacts.NoDup_app_intro.
    + exact N2.
    + apply (gr_nodup _ _ _ _ _ _ _ _ Hg).
    + intros u H1 H2. apply in_map_iff in H1. destruct H1 as (a & <- & H1). apply in_map_iff in H2. destruct H2 as (b & E & H2). apply (gr_queue _ _ _ _ _ _ _ _ Hg) in H2. destruct (ri_queue _ _ _ _ Hi a (or_intror H1)) as [Y _]. apply is_partition_lt in Y. lia.
  - intros r p ws Hin Hr Hp Hq. rewrite map_app in Hq. assert (Hpq : ~ In p (map i_partition q) /\ ~ In p (map i_partition q')) by (split; intros X; apply Hq, in_or_app; auto).
    destruct (Hbound p (is_partition_lt _ _ Hp)) as [X|X]; [|destruct Hpq as [_ Y]; exfalso; apply Y; now apply (gr_all _ _ _ _ _ _ _ _ Hg)].
    assert (Hold : In (r, p) (r_edges g)). { rewrite Hedges in Hin. apply in_app_or in Hin. destruct Hin as [Y|Y]; [exact Y|]. assert (Z : In p (map snd es)) by (apply in_map_iff; exists (r, p); auto). rewrite (gr_targets _ _ _ _ _ _ _ _ Hg) in Z. apply in_seq in Z. lia. }
    apply (grows_old_partition p X) in Hp. assert (Hr' : is_region g r ws) by (apply grows_old_region; auto; apply (ri_edges _ _ _ _ Hi) in Hold; lia).
    destruct (Nat.eq_dec p (i_partition it)) as [->|Hn].
    + destruct (ri_queue _ _ _ _ Hi it (or_introl eq_refl)) as (_ & Y & _). assert (E : r = i_region it).
      { pose proof (ri_targets _ _ _ _ Hi) as N. clear -N Y Hold. induction (r_edges g) as [|[a b] l IH]; [destruct Y|]. cbn in N. inversion N as [|? ? M1 M2]; subst. destruct Y as [Y|Y], Hold as [H|H]; try (inversion Y; inversion H; subst; congruence); auto.
        - inversion Y; subst. exfalso. apply M1. apply in_map_iff. now exists (r, i_partition it).
        - inversion H; subst. exfalso. apply M1. apply in_map_iff. now exists (i_region it, i_partition it). }
      subst r. assert (ws = vs) by (pose proof (gr_region _ _ _ _ _ _ _ _ Hg) as Z; unfold is_region in *; congruence). subst. exact (gr_split _ _ _ _ _ _ _ _ Hg).
    + apply split_ok_grows; auto. apply (ri_done _ _ _ _ Hi r); auto. cbn. intros [Y|Y]; [congruence|tauto].
Qed.
End Step.

Lemma extend_nil g : extend g [] [] = g.
Proof. unfold extend. rewrite !app_nil_r. now destruct g. Qed.

Lemma concat_singletons {A} (l : list A) : concat (map (fun v => [v]) l) = l.
Proof. induction l as [|a l IH]; [reflexivity|]. cbn. now rewrite IH. Qed.

Lemma Forall2_seq {A} (P : nat -> A -> Prop) l : forall s, (forall i a, nth_error l i = Some a -> P (s + i) a) -> Forall2 P (seq s (length l)) l.
Proof.
  induction l as [|a l IH]; intros s H; cbn; constructor.
  - specialize (H 0 a eq_refl). now rewrite Nat.add_0_r in H.
  - apply IH. intros i b Hb. specialize (H (S i) b Hb). now rewrite Nat.add_succ_r in H.
Qed.

Lemma Forall2_map_seq {A} (P : nat -> A -> Prop) (f : nat -> nat) l : (forall i a, nth_error l i = Some a -> P (f i) a) -> Forall2 P (map f (seq 0 (length l))) l.
Proof. intros H. assert (X : Forall2 (fun i a => P (f i) a) (seq 0 (length l)) l) by (apply Forall2_seq; exact H). clear H. induction X; cbn; constructor; auto. Qed.

Lemma no_successors n k g q u : rinv n k g q -> length (r_nodes g) <= u -> successors g u = [].
Proof. intros Hi Hu. unfold successors. rewrite filter_none; [reflexivity|]. intros [a b] H. apply (ri_edges _ _ _ _ Hi) in H. apply Nat.eqb_neq. cbn. lia. Qed.

Lemma loop_grows n k shuffle fuel g it q : (forall p, shuffles (shuffle p)) -> k <> 0 -> rinv n k g (it :: q) ->
  exists g' q' vs ns es, split_loop shuffle k (S fuel) g (it :: q) = split_loop shuffle k fuel g' (q ++ q') /\ grows k g it g' q' vs ns es.
Proof.
  intros Hsh Hk Hi. destruct (ri_queue _ _ _ _ Hi it (or_introl eq_refl)) as (Hp & He & Hs & vs & Hr). cbn [split_loop]. assert (Hr' := Hr). unfold is_region in Hr'. rewrite Hr'. clear Hr'.
  destruct (ri_sorted _ _ _ _ Hi _ _ Hr) as [Hsort Hincl]. assert (Hlt := is_partition_lt _ _ Hp). set (N := length (r_nodes g)) in *. set (p := i_partition it) in *.
  destruct (Nat.eqb_spec (length vs) 1) as [E1|N1].
  - exists g, [], vs, [], []. rewrite app_nil_r. split; [reflexivity|]. constructor; auto.
    + now rewrite extend_nil.
    + intros e [].
    + intros e [].
    + intros e [].
    + constructor.
    + intros u Hu H. apply is_partition_lt in H. fold N in H. lia.
    + intros u w Hu H. apply is_region_lt in H. fold N in H. lia.
    + now left.
    + intros _ X. contradiction.
    + fold p. rewrite Hs. tauto.
    + cbn. lia.
  - destruct (i_level it) as [|level] eqn:El.
    + set (ns := map (fun v => Region [v]) vs). set (es := map (fun i => (p, N + i)) (seq 0 (length vs))).
      assert (Hsucc : successors (extend g ns es) p = map (fun i => N + i) (seq 0 (length vs))).
      { rewrite successors_extend, Hs. cbn [app]. unfold es. generalize (seq 0 (length vs)) as l. induction l as [|i l IH]; [reflexivity|]. cbn [map filter fst]. rewrite Nat.eqb_refl. cbn [map snd]. now rewrite IH. }
      assert (Hnew : forall i v, nth_error vs i = Some v -> is_region (extend g ns es) (N + i) [v]).
      { intros i v Hv. unfold is_region, N. rewrite nth_extend_new. unfold ns. now apply (map_nth_error (fun v => Region [v])). }
      exists (extend g ns es), [], vs, ns, es. rewrite app_nil_r. split; [f_equal; apply add_leaves|]. constructor; auto.
      * intros e H. unfold es in H. apply in_map_iff in H. destruct H as (i & <- & Hi'). cbn. split; [now left|]. lia.
      * unfold es, ns. rewrite map_map, map_length. cbn [snd]. fold N. clear. generalize (length vs) as m. intros m. assert (G : forall s, map (fun i => N + i) (seq s m) = seq (N + s) m) by (induction m as [|m IH]; intros s; [reflexivity|]; cbn; f_equal; rewrite IH; f_equal; lia). rewrite G. f_equal. lia.
      * intros e H. unfold es in H. apply in_map_iff in H. destruct H as (i & <- & Hi'). apply in_seq in Hi'. cbn [fst snd]. left. split; [now apply nth_extend|]. destruct (nth_error vs i) as [v|] eqn:Ev; [exists [v]; now apply Hnew|]. apply nth_error_None in Ev. lia.
      * intros it' [].
      * constructor.
      * intros u Hu H. exfalso. fold N in Hu. assert (Eu : u = N + (u - N)) by lia. rewrite Eu in H. unfold is_partition, N in H. rewrite nth_extend_new in H. unfold ns in H. rewrite nth_error_map in H. destruct (nth_error vs _); discriminate H.
      * intros u w Hu H. fold N in Hu. assert (Eu : u = N + (u - N)) by lia. rewrite Eu in H. unfold is_region, N in H. rewrite nth_extend_new in H. unfold ns in H. rewrite nth_error_map in H. destruct (nth_error vs (u - length (r_nodes g))) as [v|] eqn:Ev; [|discriminate H]. inversion H. split; [repeat constructor|]. intros x [<-|[]]. now apply nth_error_In in Ev.
      * fold p. rewrite Hsucc. destruct vs as [|v0 vs0] eqn:Evs; [now left|]. rewrite <- Evs in *. right. exists (map (fun v => [v]) vs). split; [|split; [rewrite concat_singletons; reflexivity|left; split; [|reflexivity]]].
        -- rewrite <- (map_length (fun v => [v]) vs). apply Forall2_map_seq. intros i w Hw. rewrite nth_error_map in Hw. destruct (nth_error vs i) as [v|] eqn:Ev; [|discriminate Hw]. inversion Hw. now apply Hnew.
        -- apply Forall_forall. intros c Hc. apply in_map_iff in Hc. destruct Hc as (i & <- & _). rewrite successors_extend, (no_successors _ _ _ _ _ Hi) by (fold N; lia). unfold es. rewrite filter_none; [reflexivity|]. intros e H. apply in_map_iff in H. destruct H as (j & <- & _). apply Nat.eqb_neq. cbn. lia.
      * intros X. congruence.
      * fold p. rewrite Hsucc. split.
        -- intros X. apply map_eq_nil in X. destruct vs; [right; auto|discriminate].
        -- intros [X|[_ X]]; [lia|]. destruct vs; [reflexivity|discriminate].
      * cbn. lia.
    + destruct (random_partition_spec (shuffle p) vs k (Hsh p) (strongly_sorted_NoDup _ Hsort) Hk) as (ws & Ew & Hperm & Hlen & Hws). rewrite Ew, add_regions_spec. fold N.
      assert (Lw : length ws = k) by (rewrite <- (map_length (@length nat)), Hlen; now apply split_sizes_spec).
      set (ns := region_nodes ws). set (es := region_edges p N (length ws)). set (q' := map (fun i => mkRItem (N + 2 * i) level (N + 2 * i + 1)) (seq 0 (length ws))).
      assert (Hreg : forall i w, nth_error ws i = Some w -> is_region (extend g ns es) (N + 2 * i) w) by (intros i w H; unfold is_region, N; rewrite nth_extend_new; now apply region_nodes_even).
      assert (Hpart : forall i, i < length ws -> is_partition (extend g ns es) (N + 2 * i + 1)) by (intros i H; unfold is_partition, N; rewrite <- Nat.add_assoc, nth_extend_new; now apply region_nodes_odd).
      assert (Hsucc : successors (extend g ns es) p = map (fun i => N + 2 * i) (seq 0 (length ws))) by (rewrite successors_extend, Hs; now apply region_edges_p).
      assert (Hnth : forall i, i < length ws -> exists w, nth_error ws i = Some w) by (intros i H; destruct (nth_error ws i) eqn:E; [eauto|apply nth_error_None in E; lia]).
      assert (Hw : forall i w, nth_error ws i = Some w -> length vs / k <= length w /\ StronglySorted lt w /\ incl w vs).
      { intros i w H. apply nth_error_In in H. split; [|split].
        - assert (X : In (length w) (split_sizes (length vs) k)) by (rewrite <- Hlen; now apply in_map). now apply split_sizes_spec.
        - rewrite Forall_forall in Hws. now apply Hws.
        - intros v Hv. apply (Permutation_in _ Hperm). apply in_concat. eauto. }
      assert (Hnew : forall u, N <= u -> u < length (r_nodes (extend g ns es)) -> exists i, i < length ws /\ (u = N + 2 * i \/ u = N + 2 * i + 1)).
      { intros u Hu H. cbn in H. rewrite app_length in H. unfold ns in H. rewrite region_nodes_length in H. fold N in H. exists ((u - N) / 2). pose proof (Nat.div_mod (u - N) 2 ltac:(lia)). pose proof (Nat.mod_upper_bound (u - N) 2 ltac:(lia)). lia. }
      exists (extend g ns es), q', vs, ns, es. split; [reflexivity|]. constructor; auto.
      * intros e H. apply region_edges_In in H. destruct H as (i & Hi' & [-> | ->]); cbn; split; auto; try lia.
      * unfold es, ns. rewrite region_edges_snd, region_nodes_length. reflexivity.
      * intros e H. apply region_edges_In in H. destruct H as (i & Hi' & [-> | ->]); cbn [fst snd].
        -- left. split; [now apply nth_extend|]. destruct (Hnth i Hi') as [w E]. exists w. now apply Hreg.
        -- right. destruct (Hnth i Hi') as [w E]. split; [exists w; now apply Hreg|now apply Hpart].
      * intros it' H. unfold q' in H. apply in_map_iff in H. destruct H as (i & <- & Hi'). apply in_seq in Hi'. cbn [i_partition i_region i_level]. split; [fold N; lia|]. split; [apply Hpart; lia|]. split; [apply region_edges_In; exists i; split; [lia|auto]|]. split.
        -- rewrite successors_extend, (no_successors _ _ _ _ _ Hi) by (fold N; lia). rewrite filter_none; [reflexivity|]. intros e H. apply region_edges_In in H. destruct H as (j & Hj & [-> | ->]); apply Nat.eqb_neq; cbn; lia.
        -- destruct (Hnth i) as [w E]; [lia|]. exists w. split; [now apply Hreg|]. split; [now rewrite El|]. now apply (Hw i).
      * unfold q'. rewrite map_map. cbn [i_partition]. apply FinFun.Injective_map_NoDup; [|apply seq_NoDup]. intros a b. lia.
      * intros u Hu H. fold N in Hu. destruct (Hnew u Hu (is_partition_lt _ _ H)) as (i & Hi' & [-> | ->]).
        -- destruct (Hnth i Hi') as [w E]. exfalso. exact (region_not_partition _ _ _ (Hreg i w E) H).
        -- unfold q'. rewrite map_map. cbn [i_partition]. apply in_map_iff. exists i. split; [reflexivity|]. apply in_seq. lia.
      * intros u w Hu H. fold N in Hu. destruct (Hnew u Hu (is_region_lt _ _ _ H)) as (i & Hi' & [-> | ->]).
        -- destruct (Hnth i Hi') as [w' E]. assert (X := Hreg i w' E). unfold is_region in X, H. rewrite X in H. inversion H; subst. apply (Hw i w E).
        -- exfalso. exact (region_not_partition _ _ _ H (Hpart i Hi')).
      * fold p. rewrite Hsucc. right. exists ws. split; [apply Forall2_map_seq; exact Hreg|]. split; [exact Hperm|]. right. split; [|exact Hlen]. apply Forall_forall. intros c Hc. apply in_map_iff in Hc. destruct Hc as (i & <- & Hi'). apply in_seq in Hi'.
        rewrite successors_extend, (no_successors _ _ _ _ _ Hi) by (fold N; lia). cbn [app]. intros X. apply map_eq_nil in X. assert (Y : In (N + 2 * i, N + 2 * i + 1) (filter (fun e => fst e =? N + 2 * i) es)).
        { apply filter_In. split; [apply region_edges_In; exists i; split; [lia|auto]|apply Nat.eqb_refl]. } rewrite X in Y. destruct Y.
      * intros _ _. assert (X : In (length vs / k) (map (@length nat) ws)) by (rewrite Hlen; now apply split_sizes_spec). apply in_map_iff in X. destruct X as (w & Ew' & Hin). apply In_nth_error in Hin. destruct Hin as (i & Ei). exists (mkRItem (N + 2 * i) level (N + 2 * i + 1)), w. split; [|split; [now apply Hreg|exact Ew']].
        unfold q'. apply in_map_iff. exists i. split; [reflexivity|]. apply in_seq. assert (i < length ws) by (apply nth_error_Some; congruence). lia.
      * fold p. rewrite Hsucc. split; [intros X; apply map_eq_nil in X; apply (f_equal (@length nat)) in X; rewrite seq_length in X; cbn in X; lia|]. intros [X|[X _]]; [lia|congruence].
      * unfold q'. rewrite map_length, seq_length. lia.
Qed.

(** ** The whole loop *)
Fixpoint cost (k level : nat) : nat := match level with O => 1 | S l => 1 + k * cost k l end.
Definition total_cost (k : nat) (q : list item) : nat := list_sum (map (fun it => cost k (i_level it)) q).

Lemma split_loop_total n k shuffle (J : rgraph -> list item -> Prop) : (forall p, shuffles (shuffle p)) -> k <> 0 ->
  (forall g it q g' q' vs ns es, rinv n k g (it :: q) -> grows k g it g' q' vs ns es -> J g (it :: q) -> J g' (q ++ q')) ->
  forall fuel g q, rinv n k g q -> J g q -> total_cost k q <= fuel -> exists g', split_loop shuffle k fuel g q = Some g' /\ rinv n k g' [] /\ J g' [].
Proof.
  intros Hsh Hk HJ. induction fuel as [|fuel IH]; intros g q Hi Hj Hc.
  - destruct q as [|it q]; [exists g; auto|]. unfold total_cost in Hc. cbn [map] in Hc. change (list_sum (?a :: ?b)) with (a + list_sum b) in Hc. destruct (i_level it); cbn in Hc; lia.
  - destruct q as [|it q]; [exists g; auto|]. destruct (loop_grows n k shuffle fuel g it q Hsh Hk Hi) as (g' & q' & vs & ns & es & E & Hg). rewrite E. apply IH.
    + exact (rinv_grows Hi Hg).
    + exact (HJ _ _ _ _ _ _ _ _ Hi Hg Hj).
    + unfold total_cost in *. cbn [map] in Hc. change (list_sum (?a :: ?b)) with (a + list_sum b) in Hc. rewrite map_app, list_sum_app.
      assert (X : list_sum (map (fun it => cost k (i_level it)) q') < cost k (i_level it)).
      { pose proof (gr_count _ _ _ _ _ _ _ _ Hg) as C. assert (Hl : forall it', In it' q' -> S (i_level it') = i_level it) by (intros it' H; destruct (gr_queue _ _ _ _ _ _ _ _ Hg it' H) as (_ & _ & _ & _ & w & _ & X & _); exact X).
        destruct (i_level it) as [|l]; [destruct q' as [|a q']; [cbn; lia|specialize (Hl a (or_introl eq_refl)); discriminate]|]. cbn [cost].
        assert (Y : list_sum (map (fun it => cost k (i_level it)) q') = length q' * cost k l). { clear -Hl. induction q' as [|a q' IH]; [reflexivity|]. cbn [map length]. change (list_sum (?a :: ?b)) with (a + list_sum b). rewrite IH by (intros; apply Hl; now right). specialize (Hl a (or_introl eq_refl)). inversion Hl. lia. }
        rewrite Y. nia. }
      lia.
Qed.

(** ** Repeated splitting *)
Lemma add_root_partition n k depth g : rinv n k g [] -> rinv n k (add_child 0 Partition g) [mkRItem 0 depth (length (r_nodes g))].
Proof.
  intros Hi. set (N := length (r_nodes g)). replace (add_child 0 Partition g) with (extend g [Partition] [(0, N)]) by reflexivity. assert (Hpos : 0 < N) by (apply (is_region_lt _ _ _ (ri_root _ _ _ _ Hi))).
  assert (Hsucc : forall u, u <> 0 -> successors (extend g [Partition] [(0, N)]) u = successors g u).
  { intros u Hu. rewrite successors_extend. cbn [filter fst]. destruct (Nat.eqb_spec 0 u); [congruence|]. apply app_nil_r. }
  assert (Hlen : length (r_nodes (extend g [Partition] [(0, N)])) = S N) by (cbn; rewrite app_length; cbn; fold N; lia).
  assert (HN : is_partition (extend g [Partition] [(0, N)]) N) by (unfold is_partition; rewrite <- (Nat.add_0_r N); unfold N; rewrite nth_extend_new; reflexivity).
  constructor.
  - apply nth_extend, (ri_root _ _ _ _ Hi).
  - intros a b H. rewrite Hlen. cbn in H. apply in_app_or in H. destruct H as [H|[H|[]]]; [apply (ri_edges _ _ _ _ Hi) in H; fold N in H; lia|]. inversion H; subst. lia.
  - cbn. rewrite map_app. apply SimplifyFacts.NoDup_app_intro; [apply (ri_targets _ _ _ _ Hi)|repeat constructor; intros []|]. intros u H1 [<-|[]]. apply in_map_iff in H1. destruct H1 as ([a b] & E & H1). apply (ri_edges _ _ _ _ Hi) in H1. cbn in E. subst b. fold N in H1. cbn in H1. lia.
  - intros u H0 Hu. rewrite Hlen in Hu. cbn. rewrite map_app. apply in_or_app. destruct (Nat.eq_dec u N) as [->|X]; [right; now left|left]. apply (ri_cover _ _ _ _ Hi); [exact H0|fold N; lia].
  - intros a b H. cbn in H. apply in_app_or in H. destruct H as [H|[H|[]]].
    + destruct (ri_kinds _ _ _ _ Hi _ _ H) as [[X [w Y]]|[[w X] Y]]; [left; split; [now apply nth_extend|exists w; now apply nth_extend]|right; split; [exists w; now apply nth_extend|now apply nth_extend]].
    + inversion H; subst. right. split; [exists (seq 0 n); apply nth_extend, (ri_root _ _ _ _ Hi)|exact HN].
  - intros u w H. destruct (Nat.eq_dec u N) as [->|X]; [exfalso; exact (region_not_partition _ _ _ H HN)|]. assert (u < N) by (apply is_region_lt in H; rewrite Hlen in H; lia). unfold is_region in H. rewrite nth_extend_old in H by assumption. now apply (ri_sorted _ _ _ _ Hi u).
  - intros it [<-|[]]. cbn [i_partition i_region]. split; [exact HN|]. split; [cbn; apply in_or_app; right; now left|]. split; [rewrite Hsucc by lia; apply (no_successors _ _ _ _ _ Hi); fold N; lia|]. exists (seq 0 n). apply nth_extend, (ri_root _ _ _ _ Hi).
  - repeat constructor. intros [].
  - intros r p vs Hin Hr Hp Hq. cbn [map i_partition In] in Hq. assert (Hn : p <> N) by (intros ->; apply Hq; now left). assert (p < N) by (apply is_partition_lt in Hp; rewrite Hlen in Hp; lia).
    cbn in Hin. apply in_app_or in Hin. destruct Hin as [Hin|[Hin|[]]]; [|inversion Hin; congruence]. assert (Hb := ri_edges _ _ _ _ Hi _ _ Hin). fold N in Hb.
    assert (Hr' : is_region g r vs) by (unfold is_region in *; rewrite nth_extend_old in Hr by (fold N; lia); exact Hr). assert (Hp' : is_partition g p) by (unfold is_partition in *; rewrite nth_extend_old in Hp by (fold N; lia); exact Hp).
    rewrite Hsucc by lia. destruct (ri_done _ _ _ _ Hi r p vs Hin Hr' Hp' (fun X => X)) as [E|(ws & H1 & H2 & H3)]; [now left|]. right. exists ws. split; [|split; [exact H2|]].
    + clear -H1. induction H1; constructor; auto. now apply nth_extend.
    + assert (Hc : forall c, In c (successors g p) -> successors (extend g [Partition] [(0, N)]) c = successors g c).
      { intros c Hc. apply Hsucc. unfold successors in Hc. apply in_map_iff in Hc. destruct Hc as ([a b] & <- & Hc). apply filter_In in Hc. destruct Hc as [Hc _]. apply (ri_edges _ _ _ _ Hi) in Hc. cbn. lia. }
      destruct H3 as [[H3 H4]|[H3 H4]]; [left|right]; (split; [|exact H4]); rewrite Forall_forall in *; intros c Hin'; rewrite Hc by exact Hin'; now apply H3.
Qed.

(** Every partition node that is not waiting has children; waiting regions are large enough. *)
Definition big (k : nat) (g : rgraph) (q : list item) : Prop :=
  (forall it vs, In it q -> is_region g (i_region it) vs -> 2 * k ^ i_level it <= length vs) /\
  (forall p, is_partition g p -> ~ In p (map i_partition q) -> successors g p <> []).

(** There is a partition node without children, or there will be one. *)
Definition small (k : nat) (g : rgraph) (q : list item) : Prop :=
  (exists p, is_partition g p /\ ~ In p (map i_partition q) /\ successors g p = []) \/
  (exists it vs, In it q /\ is_region g (i_region it) vs /\ length vs < 2 * k ^ i_level it).

Lemma big_grows n k : k <> 0 -> forall g it q g' q' vs ns es, rinv n k g (it :: q) -> grows k g it g' q' vs ns es -> big k g (it :: q) -> big k g' (q ++ q').
Proof.
  intros Hk g it q g' q' vs ns es Hi Hg [B1 B2]. split.
  - intros it' ws Hin Hr. apply in_app_or in Hin. destruct Hin as [Hin|Hin].
    + destruct (ri_queue _ _ _ _ Hi it' (or_intror Hin)) as (_ & _ & _ & w & Hw). apply (B1 it' ws (or_intror Hin)). eapply grows_old_region; eauto. now apply is_region_lt in Hw.
    + destruct (gr_queue _ _ _ _ _ _ _ _ Hg it' Hin) as (_ & _ & _ & _ & w & X1 & X2 & X3). assert (w = ws) by (unfold is_region in *; congruence). subst w. specialize (B1 it vs (or_introl eq_refl) (gr_region _ _ _ _ _ _ _ _ Hg)). rewrite <- X2 in B1. cbn [Nat.pow] in B1.
      enough (2 * k ^ i_level it' <= length vs / k) by lia. apply Nat.div_le_lower_bound; [exact Hk|]. lia.
  - intros p Hp Hq. rewrite map_app in Hq. destruct (Nat.lt_ge_cases p (length (r_nodes g))) as [Hlt|Hge]; [|exfalso; apply Hq, in_or_app; right; now apply (gr_all _ _ _ _ _ _ _ _ Hg)].
    destruct (Nat.eq_dec p (i_partition it)) as [->|Hn].
    + intros X. apply (gr_childless _ _ _ _ _ _ _ _ Hg) in X. specialize (B1 it vs (or_introl eq_refl) (gr_region _ _ _ _ _ _ _ _ Hg)). assert (0 < k ^ i_level it) by (apply Nat.neq_0_lt_0, Nat.pow_nonzero; exact Hk). destruct X as [X|[_ X]]; lia.
    + rewrite (grows_successors Hg) by auto. apply B2; [eapply grows_old_partition; eauto|]. cbn. intros [X|X]; [congruence|]. apply Hq, in_or_app. now left.
Qed.

Lemma small_grows n k : k <> 0 -> forall g it q g' q' vs ns es, rinv n k g (it :: q) -> grows k g it g' q' vs ns es -> small k g (it :: q) -> small k g' (q ++ q').
Proof.
  intros Hk g it q g' q' vs ns es Hi Hg [(p & Hp & Hq & Hs)|(it' & ws & Hin & Hr & Hlt)].
  - left. exists p. cbn in Hq. split; [eapply grows_partition; eauto|]. split.
    + rewrite map_app. intros X. apply in_app_or in X. destruct X as [X|X]; [tauto|]. apply in_map_iff in X. destruct X as (a & <- & X). apply (gr_queue _ _ _ _ _ _ _ _ Hg) in X. apply is_partition_lt in Hp. lia.
    + rewrite (grows_successors Hg); [exact Hs|now apply is_partition_lt|]. intros ->. apply Hq. now left.
  - destruct Hin as [<-|Hin].
    + assert (ws = vs) by (pose proof (gr_region _ _ _ _ _ _ _ _ Hg) as Z; unfold is_region in *; congruence). subst ws.
      destruct (Nat.eq_dec (length vs) 1) as [E1|N1]; [left|destruct (i_level it) as [|l] eqn:El; [left|right]].
      * assert (Hp := it_partition Hi). exists (i_partition it). split; [eapply grows_partition; eauto|]. split.
        -- rewrite map_app. intros X. apply in_app_or in X. destruct X as [X|X]; [pose proof (ri_nodup _ _ _ _ Hi) as N; cbn in N; inversion N; contradiction|]. apply in_map_iff in X. destruct X as (a & E & X). apply (gr_queue _ _ _ _ _ _ _ _ Hg) in X. apply is_partition_lt in Hp. lia.
        -- apply (gr_childless _ _ _ _ _ _ _ _ Hg). now left.
      * assert (Hp := it_partition Hi). exists (i_partition it). split; [eapply grows_partition; eauto|]. split.
        -- rewrite map_app. intros X. apply in_app_or in X. destruct X as [X|X]; [pose proof (ri_nodup _ _ _ _ Hi) as N; cbn in N; inversion N; contradiction|]. apply in_map_iff in X. destruct X as (a & E & X). apply (gr_queue _ _ _ _ _ _ _ _ Hg) in X. apply is_partition_lt in Hp. lia.
        -- apply (gr_childless _ _ _ _ _ _ _ _ Hg). right. split; [exact El|]. cbn in Hlt. lia.
      * destruct (gr_small _ _ _ _ _ _ _ _ Hg) as (it'' & w & H1 & H2 & H3); [congruence|exact N1|]. exists it'', w. split; [apply in_or_app; now right|]. split; [exact H2|]. destruct (gr_queue _ _ _ _ _ _ _ _ Hg it'' H1) as (_ & _ & _ & _ & w' & _ & X & _). rewrite El in X. inversion X as [X']. rewrite X'. rewrite H3. apply Nat.div_lt_upper_bound; [exact Hk|]. cbn [Nat.pow] in Hlt. lia.
    + right. exists it', ws. split; [apply in_or_app; now left|]. split; [eapply grows_region; eauto|exact Hlt].
Qed.

Lemma repeat_split_spec n k depth shuffle fuel : (forall p, shuffles (shuffle p)) -> k <> 0 -> cost k depth <= fuel ->
  forall reps g, rinv n k g [] -> exists g', repeat_split shuffle k depth fuel reps g = Some g' /\ rinv n k g' [] /\
  (big k g [] -> 2 * k ^ depth <= n -> big k g' []) /\ (n < 2 * k ^ depth -> reps <> 0 -> small k g' []) /\ (small k g [] -> small k g' []) /\
  length (successors g' 0) = length (successors g 0) + reps.
Proof.
  intros Hsh Hk Hf. induction reps as [|reps IH]; intros g Hi; cbn [repeat_split].
  - exists g. split; [reflexivity|]. split; [exact Hi|]. split; [auto|]. split; [intros _ X; now contradiction X|]. split; [auto|lia].
  - unfold recursive_split. set (N := length (r_nodes g)). set (g1 := add_child 0 Partition g). set (q1 := [mkRItem 0 depth N]).
    assert (Hi1 : rinv n k g1 q1) by now apply add_root_partition.
    assert (Hc : total_cost k q1 <= fuel) by (unfold total_cost, q1; cbn [map i_level list_sum fold_right]; lia).
    assert (Hpos : 0 < N) by (apply (is_region_lt _ _ _ (ri_root _ _ _ _ Hi))).
    assert (Hsucc : forall u, u <> 0 -> successors g1 u = successors g u).
    { intros u Hu. change g1 with (extend g [Partition] [(0, N)]). rewrite successors_extend. cbn [filter fst]. destruct (Nat.eqb_spec 0 u); [congruence|]. apply app_nil_r. }
    assert (Hold : forall p, is_partition g1 p -> p = N \/ is_partition g p).
    { intros p Hp. assert (p < S N) by (apply is_partition_lt in Hp; cbn in Hp; rewrite app_length in Hp; cbn in Hp; fold N in Hp; lia). destruct (Nat.eq_dec p N); [now left|right]. change g1 with (extend g [Partition] [(0, N)]) in Hp. unfold is_partition in *. rewrite nth_extend_old in Hp by (fold N; lia). exact Hp. }
    set (J := fun g' q => (big k g1 q1 -> big k g' q) /\ (small k g1 q1 -> small k g' q) /\ length (successors g' 0) = S (length (successors g 0))).
    destruct (split_loop_total n k shuffle J Hsh Hk) with (fuel := fuel) (g := g1) (q := q1) as (g2 & E & Hi2 & B2 & S2 & R2); auto.
    { intros g0 it q g' q' vs ns es H1 H2 (J1 & J2 & J3). split; [intros X; eapply big_grows; eauto|]. split; [intros X; eapply small_grows; eauto|]. rewrite (grows_successors H2); [exact J3|apply (is_region_lt _ _ _ (ri_root _ _ _ _ H1))|]. intros X. pose proof (it_partition H1) as Y. rewrite <- X in Y. exact (region_not_partition _ _ _ (ri_root _ _ _ _ H1) Y). }
    { split; [auto|]. split; [auto|]. change g1 with (extend g [Partition] [(0, N)]). rewrite successors_extend. cbn. rewrite app_length. cbn. lia. }
    rewrite E. destruct (IH g2 Hi2) as (g' & E' & Hi' & B' & S' & T' & R'). exists g'. split; [exact E'|]. split; [exact Hi'|]. split; [|split; [|split]].
    + intros [_ X] Hle. apply B'; auto. apply B2. split.
      * intros it vs [<-|[]] Hr. cbn [i_level i_region] in *. assert (Z := ri_root _ _ _ _ Hi1). unfold is_region in *. rewrite Z in Hr. inversion Hr. now rewrite seq_length.
      * intros p Hp Hq. cbn in Hq. destruct (Hold p Hp) as [->|Hp']; [exfalso; apply Hq; now left|]. rewrite Hsucc; [apply X; auto|]. intros ->. exact (region_not_partition _ _ _ (ri_root _ _ _ _ Hi) Hp').
    + intros Hlt _. apply T', S2. right. exists (mkRItem 0 depth N), (seq 0 n). split; [now left|]. split; [exact (ri_root _ _ _ _ Hi1)|]. rewrite seq_length. exact Hlt.
    + intros [(p & Hp & Hq & Hs)|(it & vs & [] & _)]. apply T', S2. left. exists p. split; [change g1 with (extend g [Partition] [(0, N)]); now apply nth_extend|]. split; [cbn; intros [X|[]]; apply is_partition_lt in Hp; fold N in Hp; lia|]. rewrite Hsucc; [exact Hs|]. intros ->. exact (region_not_partition _ _ _ (ri_root _ _ _ _ Hi) Hp).
    + lia.
Qed.

Lemma initial_inv n k : rinv n k (mkRG [Region (seq 0 n)] []) [].
Proof.
  constructor; cbn; try tauto.
  - reflexivity.
  - constructor.
  - intros u H0 H. lia.
  - intros u w H. unfold is_region in H. destruct u as [|[|u]]; cbn in H; try discriminate. inversion H; subst. split; [|apply incl_refl]. clear. generalize 0 as s. induction n as [|n IH]; intros s; cbn; constructor; auto. apply Forall_forall. intros x Hx. apply in_seq in Hx. lia.
  - constructor.
Qed.

Lemma create_spec n k depth reps shuffle fuel : (forall p, shuffles (shuffle p)) -> k <> 0 -> cost k depth <= fuel ->
  exists g, create_random_region_graph shuffle n k depth reps fuel = Some g /\ rinv n k g [] /\ length (successors g 0) = reps /\
  (reps <> 0 -> ((forall p, is_partition g p -> successors g p <> []) <-> 2 * k ^ depth <= n)).
Proof.
  intros Hsh Hk Hf. destruct (repeat_split_spec n k depth shuffle fuel Hsh Hk Hf reps _ (initial_inv n k)) as (g & E & Hi & B & Sm & _ & R). exists g. split; [exact E|]. split; [exact Hi|]. split; [exact R|]. intros Hr. split.
  - intros H. destruct (Nat.lt_ge_cases n (2 * k ^ depth)) as [Hlt|]; [|assumption]. destruct (Sm Hlt Hr) as [(p & Hp & _ & Hs)|(it & vs & [] & _)]. exfalso. exact (H p Hp Hs).
  - intros H p Hp. apply B; auto. split; [intros it vs []|]. intros p' Hp'. unfold is_partition in Hp'. destruct p' as [|[|p']]; discriminate Hp'.
Qed.
