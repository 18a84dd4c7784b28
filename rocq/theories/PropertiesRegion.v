(** * PropertiesRegion: random region graphs (C48, C49) *)
From Coq Require Import List Arith Bool Lia Permutation Sorted Reals Lra ZArith.
From Verif Require Import Num Graph Spec Circuit EvalFacts Interval BayesNet SimplifyFacts PropertiesJptParams SpecFacts JaxLayer JaxSpec JaxMeaning PropertiesJaxLayer RegionGraph RegionFacts RegionInv RegionCircuit.
Import ListNotations.
Local Set Bullet Behavior "Strict Subproofs".
Local Open Scope nat_scope.

(** ** C48 *)

(** The parts are pairwise disjoint and cover the whole. *)
Definition partition_of (whole : list nat) (parts : list (list nat)) : Prop :=
  (forall v, In v whole <-> exists part, In part parts /\ In v part) /\
  (forall i j a b v, nth_error parts i = Some a -> nth_error parts j = Some b -> In v a -> In v b -> i = j) /\
  (forall part, In part parts -> NoDup part).

Lemma permutation_partition whole parts : NoDup whole -> Permutation (concat parts) whole -> partition_of whole parts.
Proof.
  intros N P. assert (N' : NoDup (concat parts)) by exact (Permutation_NoDup (Permutation_sym P) N). split; [|split].
  - intros v. rewrite <- in_concat. split; intros H; [exact (Permutation_in _ (Permutation_sym P) H)|exact (Permutation_in _ P H)].
  - intros. eapply concat_NoDup_index; eauto.
  - intros part H. eapply nodup_concat_part; eauto.
Qed.

Lemma split_sizes_close n k a b : k <> 0 -> In a (split_sizes n k) -> In b (split_sizes n k) -> a <= S b.
Proof.
  intros _. unfold split_sizes. intros Ha Hb. apply in_app_or in Ha, Hb. destruct Ha as [Ha|Ha], Hb as [Hb|Hb]; apply repeat_spec in Ha; apply repeat_spec in Hb; lia.
Qed.

(** C48: whatever permutation the shuffle chooses, the variables are split into [k] pairwise disjoint parts which together
    have all variables, and whose sizes differ by at most one. *)
Theorem C48_random_partition shuffle variables k : (forall l, Permutation (shuffle l) l) -> StronglySorted lt variables -> k <> 0 ->
  exists parts, random_partition shuffle variables k = Some parts /\ length parts = k /\ partition_of variables parts /\
  (forall part, In part parts -> StronglySorted lt part) /\
  (forall a b, In a parts -> In b parts -> length a <= S (length b)).
Proof.
  intros Hs Hv Hk. pose proof (strongly_sorted_NoDup _ Hv) as N. destruct (random_partition_spec shuffle variables k Hs N Hk) as (ws & E & P & Hl & Hf). exists ws. split; [exact E|]. split; [|split; [|split]].
  - rewrite <- (map_length (@length nat)), Hl. unfold split_sizes. rewrite app_length, !repeat_length. pose proof (Nat.mod_upper_bound (length variables) k Hk). lia.
  - now apply permutation_partition.
  - now apply Forall_forall.
  - intros a b Ha Hb. apply (split_sizes_close (length variables) k); [exact Hk| |]; rewrite <- Hl; now apply in_map.
Qed.
Print Assumptions C48_random_partition.

Example C48_partition_case : random_partition (@rev nat) [2; 3; 5; 7; 11] 2 = Some [[5; 7; 11]; [2; 3]].
Proof. reflexivity. Qed.

(** The scopes of a list of nodes. *)
Definition scopes (g : rgraph) (us : list nat) (ws : list (list nat)) : Prop := Forall2 (fun u w => nth_error (r_nodes g) u = Some (Region w)) us ws.

(** C48, the consequence: in the graph that [create_random_region_graph] returns, for any shuffles, every partition is below
    exactly one region, and if it has children at all then these are regions that partition the variables of that region. *)
Theorem C48_region_graph shuffle n k depth repetitions fuel : (forall p l, Permutation (shuffle p l) l) -> k <> 0 -> cost k depth <= fuel ->
  exists g, create_random_region_graph shuffle n k depth repetitions fuel = Some g /\
  nth_error (r_nodes g) 0 = Some (Region (seq 0 n)) /\ length (successors g 0) = repetitions /\
  forall p, nth_error (r_nodes g) p = Some Partition ->
  exists r vs, predecessors g p = [r] /\ nth_error (r_nodes g) r = Some (Region vs) /\
  (successors g p = [] \/ exists ws, scopes g (successors g p) ws /\ partition_of vs ws).
Proof.
  intros Hs Hk Hf. destruct (create_spec n k depth repetitions shuffle fuel Hs Hk Hf) as (g & E & Hi & Hreps & _). exists g. split; [exact E|]. split; [exact (ri_root _ _ _ _ Hi)|]. split; [exact Hreps|]. intros p Hp.
  assert (H0 : p <> 0) by (intros ->; exact (region_not_partition _ _ _ (ri_root _ _ _ _ Hi) Hp)). assert (Hl := is_partition_lt _ _ Hp).
  assert (X : In p (map snd (r_edges g))) by (apply (ri_cover _ _ _ _ Hi); lia). apply in_map_iff in X. destruct X as ([r b] & Eb & X). cbn in Eb. subst b.
  destruct (ri_kinds _ _ _ _ Hi _ _ X) as [[_ [w Hw]]|[[vs Hr] _]]; [exfalso; exact (region_not_partition _ _ _ Hw Hp)|]. exists r, vs. split; [|split; [exact Hr|]].
  - assert (HP : forall a, In a (predecessors g p) <-> In (a, p) (r_edges g)).
    { intros a. unfold predecessors. rewrite in_map_iff. split.
      - intros ([a' b] & E1 & H). apply filter_In in H. destruct H as [H E']. apply Nat.eqb_eq in E'. cbn in *. now subst.
      - intros H. exists (a, p). split; [reflexivity|]. apply filter_In. split; [exact H|apply Nat.eqb_refl]. }
    assert (N : length (predecessors g p) <= 1).
    { unfold predecessors. rewrite map_length. pose proof (ri_targets _ _ _ _ Hi) as N. clear -N. induction (r_edges g) as [|[a b] es IH]; [cbn; lia|]. cbn in N |- *. inversion N as [|? ? N1 N2]; subst. destruct (Nat.eqb_spec b p) as [->|]; [|auto]. cbn. rewrite filter_none; [cbn; lia|]. intros [a' b'] He. apply Nat.eqb_neq. cbn. intros ->. apply N1. apply in_map_iff. now exists (a', p). }
    destruct (predecessors g p) as [|a [|a' l]]; [exfalso; now apply (HP r)| |cbn in N; lia]. f_equal. apply (one_parent Hi _ _ p); [apply HP; now left|exact X].
  - destruct (ri_done _ _ _ _ Hi r p vs X Hr Hp (fun Y => Y)) as [Hc|(ws & H1 & H2 & _)]; [now left|right]. exists ws. split; [exact H1|]. apply permutation_partition; [|exact H2]. apply strongly_sorted_NoDup. apply (ri_sorted _ _ _ _ Hi _ _ Hr).
Qed.
Print Assumptions C48_region_graph.

Example C48_graph_case : exists g, create_random_region_graph (fun _ => @rev nat) 5 2 1 1 8 = Some g /\
  nth_error (r_nodes g) 1 = Some Partition /\ predecessors g 1 = [0] /\ scopes g (successors g 1) [[2; 3; 4]; [0; 1]].
Proof. eexists. split; [reflexivity|]. repeat split; repeat constructor. Qed.

(** ** C49 *)

(** What [jax.random.uniform] returns. *)
Definition unit_interval (u : R) : Prop := (0 <= u < 1)%R.

(** Every random region graph over continuous and symbolic variables can be converted. *)
Definition C49_full : Prop := forall kind uniform1 uniform2 classes input_units sum_units shuffle n k depth repetitions fuel,
  (forall p l, Permutation (shuffle p l) l) -> (forall m i, unit_interval (uniform1 m i)) -> (forall s i j, unit_interval (uniform2 s i j)) ->
  (forall v, v < n -> kind v <> RInteger /\ kind v <> RSymbolic 0) ->
  n <> 0 -> k <> 0 -> repetitions <> 0 -> classes <> 0 -> input_units <> 0 -> sum_units <> 0 -> cost k depth <= fuel ->
  exists g L, create_random_region_graph shuffle n k depth repetitions fuel = Some g /\
  as_probabilistic_circuit kind uniform1 uniform2 classes input_units sum_units g = Some L.

Section Convert.
Variable kind : nat -> rkind.
Variable uniform1 : nat -> nat -> R.
Variable uniform2 : nat * nat -> nat -> nat -> R.
Variables classes input_units sum_units : nat.
Hypothesis H_input : input_units <> 0.
Hypothesis H_sum : sum_units <> 0.
Hypothesis H_u2 : forall s i j, unit_interval (uniform2 s i j).
Context {n k : nat} {g : rgraph}.
Hypothesis H_kind : forall v, v < n -> kind v <> RInteger /\ kind v <> RSymbolic 0.
Hypothesis Hi : rinv n k g [].
Hypothesis H_root : successors g 0 <> [].
Hypothesis H_parts : forall p, is_partition g p -> successors g p <> [].
Notation node_layer := (node_layer kind uniform1 uniform2 classes input_units sum_units).
Notation as_pc := (as_probabilistic_circuit kind uniform1 uniform2 classes input_units sum_units).

Definition units_of (u : nat) : nat := if u =? 0 then classes else match successors g u with [] => input_units | _ => sum_units end.
Definition node_good (u : nat) (L : layer) : Prop :=
  (forall vs, is_region g u vs -> good vs (units_of u) L) /\
  (forall r vs, is_partition g u -> In (r, u) (r_edges g) -> is_region g r vs -> exists m, m <> 0 /\ good vs m L).

Lemma lookup_all M cs : (forall c, In c cs -> exists L, lookup_layer M c = Some L /\ node_good c L) -> exists ls, mapM (lookup_layer M) cs = Some ls /\ Forall2 node_good cs ls.
Proof.
  induction cs as [|c cs IH]; intros H; [exists []; split; [reflexivity|constructor]|]. destruct (H c (or_introl eq_refl)) as (L & E & G). destruct IH as (ls & El & Gl); [intros; apply H; now right|]. exists (L :: ls). cbn [mapM]. rewrite E, El. split; [reflexivity|now constructor].
Qed.

Lemma parent_of u : u <> 0 -> u < length (r_nodes g) -> exists a, In (a, u) (r_edges g).
Proof. intros H0 Hl. assert (X : In u (map snd (r_edges g))) by (apply (ri_cover _ _ _ _ Hi); lia). apply in_map_iff in X. destruct X as ([r b] & Eb & X). cbn in Eb. subst b. now exists r. Qed.

Lemma partition_parent p : is_partition g p -> exists r vs, In (r, p) (r_edges g) /\ is_region g r vs /\ split_ok k g vs (successors g p).
Proof.
  intros Hp. assert (H0 : p <> 0) by (intros ->; exact (region_not_partition _ _ _ (ri_root _ _ _ _ Hi) Hp)). destruct (parent_of p H0 (is_partition_lt _ _ Hp)) as (r & X).
  destruct (ri_kinds _ _ _ _ Hi _ _ X) as [[_ [w Hw]]|[[vs Hr] _]]; [exfalso; exact (region_not_partition _ _ _ Hw Hp)|]. exists r, vs. split; [exact X|]. split; [exact Hr|]. exact (ri_done _ _ _ _ Hi r p vs X Hr Hp (fun Y => Y)).
Qed.

Lemma leaf_single u vs : is_region g u vs -> successors g u = [] -> exists v, vs = [v] /\ v < n.
Proof.
  intros Hu Hs. assert (H0 : u <> 0) by (intros ->; contradiction). destruct (parent_of u H0 (is_region_lt _ _ _ Hu)) as (p & X).
  destruct (ri_kinds _ _ _ _ Hi _ _ X) as [[Hp _]|[_ Y]]; [|exfalso; exact (region_not_partition _ _ _ Hu Y)].
  destruct (partition_parent p Hp) as (r & vr & X' & Hr & Hsp). assert (Hin : In u (successors g p)) by now apply successors_In.
  destruct Hsp as [E|(ws & F & P & [[L E]|[L _]])].
  - rewrite E in Hin. destruct Hin.
  - assert (Hw : In vs ws). { clear -F Hin Hu. induction F as [|c w cs ws' G F IH]; [destruct Hin|]. destruct Hin as [->|Hin]; [left; unfold is_region in *; congruence|right; auto]. }
    rewrite E in Hw. apply in_map_iff in Hw. destruct Hw as (v & <- & Hv). exists v. split; [reflexivity|]. destruct (ri_sorted _ _ _ _ Hi _ _ Hr) as [_ Y]. apply Y in Hv. apply in_seq in Hv. lia.
  - rewrite Forall_forall in L. exfalso. exact (L u Hin Hs).
Qed.

Lemma node_step M u : (forall c, In c (successors g u) -> exists L, lookup_layer M c = Some L /\ node_good c L) -> u < length (r_nodes g) -> exists L, node_layer g M u = Some L /\ node_good u L.
Proof.
  intros HM Hu. unfold RegionGraph.node_layer. destruct (nth_error (r_nodes g) u) as [[vs|]|] eqn:En.
  - assert (Hr : is_region g u vs) by exact En. destruct (successors g u) as [|c0 cs0] eqn:Es.
    + destruct (leaf_single u vs Hr Es) as (v & -> & Hv). destruct (H_kind v Hv) as [K1 K2]. destruct (leaf_good kind uniform1 uniform2 input_units H_u2 v K1 K2) as (L & E & G). exists L. split; [exact E|]. split; [|intros r w Hp; exfalso; exact (region_not_partition _ _ _ Hr Hp)].
      intros w Hw. assert (w = [v]) by (unfold is_region in *; congruence). subst w. unfold units_of. rewrite Es. destruct (Nat.eqb_spec u 0) as [->|]; [contradiction|exact G].
    + rewrite <- Es in *. destruct (lookup_all M _ HM) as (ls & El & Gl). rewrite El. rewrite (preds_nil Hi u Hu).
      destruct (sum_good uniform2 H_u2 vs (if u =? 0 then classes else sum_units) ls) as (L & E & G).
      * destruct ls; [rewrite Es in Gl; inversion Gl|discriminate].
      * apply Forall_forall. intros L HL. assert (Hc : exists c, In c (successors g u) /\ node_good c L). { clear -Gl HL. induction Gl as [|c L' cs ls' G F IH]; [destruct HL|]. destruct HL as [->|HL]; [exists c; split; [now left|exact G]|]. destruct (IH HL) as (c' & H1 & H2). exists c'. split; [now right|exact H2]. }
        destruct Hc as (c & Hc & [_ G]). apply successors_In in Hc. destruct (ri_kinds _ _ _ _ Hi _ _ Hc) as [[Y _]|[_ Y]]; [exfalso; exact (region_not_partition _ _ _ Hr Y)|]. exact (G u vs Y Hc Hr).
      * exists L. split; [exact E|]. split; [|intros r w Hp; exfalso; exact (region_not_partition _ _ _ Hr Hp)]. intros w Hw. assert (w = vs) by (unfold is_region in *; congruence). subst w. unfold units_of. rewrite Es. exact G.
  - assert (Hp : is_partition g u) by exact En. destruct (lookup_all M _ HM) as (ls & El & Gl). rewrite El. destruct (partition_parent u Hp) as (r & vs & He & Hr & [Hs|(ws & F & P & Hk)]); [exfalso; exact (H_parts u Hp Hs)|].
    assert (Hm : exists m, m <> 0 /\ forall c, In c (successors g u) -> units_of c = m).
    { assert (Hc0 : forall c, In c (successors g u) -> c <> 0) by (intros c Hc; apply successors_In in Hc; apply (ri_edges _ _ _ _ Hi) in Hc; lia). destruct Hk as [[L _]|[L _]]; rewrite Forall_forall in L; [exists input_units|exists sum_units]; (split; [assumption|]); intros c Hc; unfold units_of; (destruct (Nat.eqb_spec c 0) as [X|_]; [exfalso; exact (Hc0 c Hc X)|]); specialize (L c Hc); destruct (successors g c); congruence. }
    destruct Hm as (m & M0 & Hm). destruct (product_good vs ws m ls) as (L & E & G).
    + pose proof (H_parts u Hp) as Z. destruct ls; [inversion Gl; congruence|discriminate].
    + apply (ri_sorted _ _ _ _ Hi _ _ Hr).
    + exact P.
    + clear -F Gl Hm. revert Hm. revert ls Gl. induction F as [|c w cs ws' Gw F IH]; intros ls Gl Hm; inversion Gl as [|? L ? ls' G Gl']; subst; constructor.
      * rewrite <- (Hm c) by now left. destruct G as [G _]. apply G. exact Gw.
      * apply IH; [assumption|]. intros c' Hc'. apply Hm. now right.
    + exists L. split; [exact E|]. split; [intros w Hw; exfalso; exact (region_not_partition _ _ _ Hw Hp)|]. intros r' vs' _ He' Hr'. rewrite (one_parent Hi _ _ _ He' He) in Hr'. assert (vs' = vs) by (unfold is_region in *; congruence). subst vs'. now exists m.
  - exfalso. apply nth_error_None in En. lia.
Qed.

Lemma converts : exists L, as_pc g = Some L /\ good (seq 0 n) classes L.
Proof.
  unfold as_probabilistic_circuit. rewrite (root_is_0 Hi). pose proof (root_chain Hi) as Hc.
  destruct (visit_chain kind uniform1 uniform2 classes input_units sum_units g node_good node_step _ _ Hc) as (M & E & HM).
  - assert (G : forall layer layers, chain g layer layers -> (forall u, In u layer -> u < length (r_nodes g)) -> forall u, In u (concat layers) -> u < length (r_nodes g)).
    { intros layer layers Hch. induction Hch as [|l rest Hn Hr IH]; intros Hl u Hu; [destruct Hu|]. cbn in Hu. apply in_app_or in Hu. destruct Hu as [Hu|Hu]; [auto|]. apply IH; [|exact Hu]. intros w Hw. apply in_concat in Hw. destruct Hw as (s & H1 & H2). apply in_map_iff in H1. destruct H1 as (x & <- & H1). apply successors_In in H2. apply (ri_edges _ _ _ _ Hi) in H2. lia. }
    apply (G _ _ Hc). intros u [<-|[]]. exact (is_region_lt _ _ _ (ri_root _ _ _ _ Hi)).
  - rewrite E. destruct (HM 0) as (L & El & [G _]); [apply (chain_all Hi _ Hc); exact (is_region_lt _ _ _ (ri_root _ _ _ _ Hi))|]. exists L. split; [exact El|]. exact (G _ (ri_root _ _ _ _ Hi)).
Qed.
End Convert.

Lemma childless_fails kind uniform1 uniform2 classes iu su n k g p : rinv n k g [] -> is_partition g p -> successors g p = [] ->
  as_probabilistic_circuit kind uniform1 uniform2 classes iu su g = None.
Proof.
  intros Hi Hp Hs. unfold as_probabilistic_circuit. rewrite (root_is_0 Hi), (visit_fails _ _ _ _ _ _ g p); [reflexivity| |].
  - intros M. unfold node_layer. unfold is_partition in Hp. rewrite Hp, Hs. reflexivity.
  - assert (X := chain_all Hi _ (root_chain Hi) p (is_partition_lt _ _ Hp)). apply in_concat in X. destruct X as (l & H1 & H2). apply in_concat. exists l. split; [now apply in_rev in H1|exact H2].
Qed.

(** C49, guarded: the conversion succeeds exactly if the regions at the given depth still have two variables, that is if
    [n / k^depth >= 2].  The layered circuit is then over all variables, has one node per class, passes the checks of all
    its layers, its sums are over children with the same variables, its products over children with different variables,
    and all its edges lead to existing nodes.  Missing: smaller regions, whose partitions have no children. *)
Theorem C49_conversion_partial kind uniform1 uniform2 classes input_units sum_units shuffle n k depth repetitions fuel :
  (forall p l, Permutation (shuffle p l) l) -> (forall m i, unit_interval (uniform1 m i)) -> (forall s i j, unit_interval (uniform2 s i j)) ->
  (forall v, v < n -> kind v <> RInteger /\ kind v <> RSymbolic 0) ->
  k <> 0 -> repetitions <> 0 -> input_units <> 0 -> sum_units <> 0 -> cost k depth <= fuel ->
  exists g, create_random_region_graph shuffle n k depth repetitions fuel = Some g /\
  ((exists L, as_probabilistic_circuit kind uniform1 uniform2 classes input_units sum_units g = Some L) <-> 2 * k ^ depth <= n) /\
  forall L, as_probabilistic_circuit kind uniform1 uniform2 classes input_units sum_units g = Some L ->
  variables L = seq 0 n /\ number_of_nodes L = classes /\ sound L /\ scoped L /\ Forall (fun l => validate l = true) (all_layers L).
Proof.
  intros Hs H1 H2 Hkind Hk Hr Hin Hsu Hf. destruct (create_spec n k depth repetitions shuffle fuel Hs Hk Hf) as (g & E & Hi & Hroot & Hiff). assert (Hroot' : successors g 0 <> []) by (intros X; rewrite X in Hroot; cbn in Hroot; congruence). specialize (Hiff Hr). exists g. split; [exact E|].
  assert (Hall : (forall p, is_partition g p -> successors g p <> []) \/ exists p, is_partition g p /\ successors g p = []).
  { destruct (existsb (fun p => match nth_error (r_nodes g) p, successors g p with Some Partition, [] => true | _, _ => false end) (seq 0 (length (r_nodes g)))) eqn:B.
    - right. apply existsb_exists in B. destruct B as (p & _ & B). exists p. unfold is_partition. destruct (nth_error (r_nodes g) p) as [[|]|]; try discriminate. destruct (successors g p); [auto|discriminate].
    - left. intros p Hp Hsp. assert (X : existsb (fun p => match nth_error (r_nodes g) p, successors g p with Some Partition, [] => true | _, _ => false end) (seq 0 (length (r_nodes g))) = true).
      { apply existsb_exists. exists p. split; [apply in_seq; split; [lia|]; exact (is_partition_lt _ _ Hp)|]. unfold is_partition in Hp. now rewrite Hp, Hsp. }
      congruence. }
  destruct Hall as [Hall|(p & Hp & Hsp)].
  - destruct (converts kind uniform1 uniform2 classes input_units sum_units Hin Hsu H2 Hkind Hi Hroot' Hall) as (L & EL & G). split.
    + split; [intros _; now apply Hiff|intros _; now exists L].
    + intros L' EL'. rewrite EL in EL'. inversion EL'; subst. exact G.
  - rewrite (childless_fails kind uniform1 uniform2 classes input_units sum_units n k g p Hi Hp Hsp). split; [|discriminate]. split; [intros (L & X); discriminate|]. intros X. exfalso. exact (proj2 Hiff X p Hp Hsp).
Qed.
Print Assumptions C49_conversion_partial.

(** C49 is false: two variables, two partitions, depth one. *)
Theorem C49_refuted : ~ C49_full.
Proof.
  intros H. destruct (C49_conversion_partial (fun _ => RContinuous) (fun _ _ => 0%R) (fun _ _ _ => 0%R) 1 1 1 (fun _ l => l) 2 2 1 1 (cost 2 1)) as (g & E & Hiff & _); try (intros; unfold unit_interval; lra); try (intros; apply Permutation_refl); try discriminate; try lia.
  { intros v _. split; discriminate. }
  destruct (H (fun _ => RContinuous) (fun _ _ => 0%R) (fun _ _ _ => 0%R) 1 1 1 (fun _ l => l) 2 2 1 1 (cost 2 1)) as (g' & L & E' & EL); try (intros; unfold unit_interval; lra); try (intros; apply Permutation_refl); try discriminate; try lia.
  { intros v _. split; discriminate. }
  rewrite E in E'. inversion E'; subst g'. assert (X : 2 * 2 ^ 1 <= 2) by (apply Hiff; now exists L). cbn in X. lia.
Qed.
Print Assumptions C49_refuted.

Example C49_case : exists g L, create_random_region_graph (fun _ => @rev nat) 4 2 1 2 8 = Some g /\
  as_probabilistic_circuit (fun v => if v =? 0 then RSymbolic 3 else RContinuous) (fun _ _ => (1 / 2)%R) (fun _ _ _ => (1 / 3)%R) 2 3 4 g = Some L /\ variables L = [0; 1; 2; 3].
Proof.
  destruct (C49_conversion_partial (fun v => if v =? 0 then RSymbolic 3 else RContinuous) (fun _ _ => (1 / 2)%R) (fun _ _ _ => (1 / 3)%R) 2 3 4 (fun _ => @rev nat) 4 2 1 2 8) as (g & E & Hiff & HL); try (intros; unfold unit_interval; lra); try discriminate.
  - intros _ l. apply Permutation_sym, Permutation_rev.
  - intros v _. destruct (v =? 0); split; discriminate.
  - cbn. lia.
  - destruct (proj2 Hiff) as (L & EL); [cbn; lia|]. exists g, L. split; [exact E|]. split; [exact EL|]. exact (proj1 (HL L EL)).
Qed.
