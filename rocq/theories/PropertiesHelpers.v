(** * Properties C65 and C66: replacing discrete leaves by sums, mounting circuits of Bayesian networks *)
From Coq Require Import List Arith Bool Lia ZArith Reals Lra Permutation.
From Verif Require Import Num Graph GraphFacts Spec SpecFacts Circuit EvalFacts VarFacts Interval Dist DistFacts TreeProb Simplify SimplifyFacts
  TreeLocal NormalizeFacts Conditional Copy CopyFacts Heap Support SupportFacts ModeFacts JaxLayerFacts Mixture MixtureFacts
  Interaction InteractionFacts Mounting Helpers PropertiesQuery PropertiesProb PropertiesSimplify PropertiesSupport PropertiesMixture PropertiesInteraction.
Import ListNotations.
Local Set Bullet Behavior "Strict Subproofs".
Local Open Scope R_scope.

(** ** C65 *)

(** [g'] says the same as [g] and all its discrete leaves are concentrated on one element. *)
Definition same_answers (g g' : graph dist) (t : pc dist) : Prop :=
  (forall x L, likelihood_at g x L <-> likelihood_at g' x L) /\ (forall e q, event_ok t e -> (answers g e q <-> answers g' e q)).
Definition all_concentrated (g : graph dist) : Prop :=
  forall u d p, node_kind g u = Some (ULeaf d) -> probabilities d = Some p -> length p = 1%nat.

Definition C65_full : Prop := forall order g t nx, (forall l, Permutation (order l) l) -> layered_circuit g t -> smooth dist_vars t ->
  all_leaves dist_ok t -> all_sums (Forall lw_ok) t -> (forall x, In x (node_ids g) -> (x < nx)%nat) ->
  exists g' nx', replace_discrete order g nx = inl (g', nx') /\ same_answers g g' t /\ all_concentrated g'.

(** Distributions over the elements of a symbolic or of an integer variable. *)
Definition discrete (d : dist) : Prop := exists v p, d = DSym v p \/ d = DInt v p.
Lemma is_discrete_iff d : is_discrete d = true <-> discrete d.
Proof. split; [destruct d; try discriminate; intros _; red; eauto|]. intros (v & p & [-> | ->]); reflexivity. Qed.

(** A leaf below the root of the circuit that is discrete. *)
Definition has_discrete_leaf (g : graph dist) (order : list id -> list id) : Prop :=
  exists old u d, circuit_leaves g = Some old /\ In u (order old) /\ node_kind g u = Some (ULeaf d) /\ discrete d.

Lemma has_node_drop (g : graph dist) u : has_node (drop_node g u) u = false.
Proof.
  unfold has_node, drop_node, node_ids. simpl. apply existsb_eqb_nIn. intros H. apply in_map_iff in H. destruct H as (n & E & H).
  apply filter_In in H. destruct H as [_ H]. apply negb_true_iff, Nat.eqb_neq in H. auto.
Qed.

Lemma deterministic_sum_gone g u nx g1 s : as_deterministic_sum g u nx = Some (g1, s) -> has_node g1 u = false.
Proof.
  unfold as_deterministic_sum. destruct (node_kind g u) as [[d| |]|]; try discriminate. destruct (probabilities d) as [p|]; [|discriminate].
  destruct (fold_left _ _ _) as [[ga st] m]. unfold remove_node. destruct (has_node _ u); [|discriminate]. intros H. injection H as <- _. apply has_node_drop.
Qed.

(** Turn by turn: a leaf that is not discrete changes nothing, a discrete one raises. *)
Lemma replace_turn g nx u d : node_kind g u = Some (ULeaf d) ->
  if is_discrete d then exists h, replace_leaf (g, nx) u = inr h /\ match as_deterministic_sum g u nx with Some (g1, _) => h = g1 | None => h = g end
  else replace_leaf (g, nx) u = inl (g, nx).
Proof.
  intros H. unfold replace_leaf. rewrite H. destruct (is_discrete d) eqn:Ed; [|reflexivity].
  destruct (as_deterministic_sum g u nx) as [[g1 s]|] eqn:E; [|eauto].
  rewrite (deterministic_sum_gone _ _ _ _ _ E). eauto.
Qed.

Lemma circuit_leaves_leaf {D} (g : graph D) old u : circuit_leaves g = Some old -> In u old -> exists d, node_kind g u = Some (ULeaf d).
Proof.
  unfold circuit_leaves. destruct (root g) as [r|]; [|discriminate].
  destruct (node_kind g r) as [[d| |]|]; intros H Hu.
  - injection H as <-. destruct Hu.
  - destruct (reachable_list g r); [|discriminate]. injection H as <-. apply filter_In in Hu. destruct Hu as [_ Hu].
    destruct (node_kind g u) as [[d| |]|]; try discriminate. eauto.
  - destruct (reachable_list g r); [|discriminate]. injection H as <-. apply filter_In in Hu. destruct Hu as [_ Hu].
    destruct (node_kind g u) as [[d| |]|]; try discriminate. eauto.
  - destruct (reachable_list g r); [|discriminate]. injection H as <-. apply filter_In in Hu. destruct Hu as [_ Hu].
    destruct (node_kind g u) as [[d| |]|]; try discriminate. eauto.
Qed.

(** It raises as soon as there is something to replace: the unit whose predecessors it asks for has just been removed.  What is
    left behind has one leaf replaced. *)
Theorem C65_raises order g nx : (forall l, Permutation (order l) l) -> has_discrete_leaf g order ->
  exists h, replace_discrete order g nx = inr h /\
    exists u d, node_kind g u = Some (ULeaf d) /\ discrete d /\ match as_deterministic_sum g u nx with Some (g1, _) => h = g1 | None => h = g end.
Proof.
  intros Ho (old & u & d & E & Hu & Hk & Hd). unfold replace_discrete. rewrite E.
  assert (L : forall x, In x (order old) -> exists d, node_kind g x = Some (ULeaf d)).
  { intros x Hx. apply (circuit_leaves_leaf g old); auto. now apply (Permutation_in _ (Ho old)). }
  revert Hu L. generalize (order old). intros l. induction l as [|x l IH]; intros Hu L; [destruct Hu|]. cbn [replace_leaves].
  destruct (L x) as (dx & Hx); [now left|]. assert (T := replace_turn g nx x dx Hx). destruct (is_discrete dx) eqn:Edx.
  - destruct T as (h & -> & Hh). exists h. split; auto. exists x, dx. split; [exact Hx|]. split; [now apply is_discrete_iff|exact Hh].
  - rewrite T. apply IH; [|intros; apply L; now right]. destruct Hu as [->|Hu]; auto. apply is_discrete_iff in Hd. congruence.
Qed.

(** Otherwise nothing happens. *)
Theorem C65_untouched order g nx old : circuit_leaves g = Some old -> (forall l, Permutation (order l) l) -> ~ has_discrete_leaf g order ->
  replace_discrete order g nx = inl (g, nx).
Proof.
  intros E Ho Hn. unfold replace_discrete. rewrite E.
  assert (L : forall x, In x (order old) -> exists d, node_kind g x = Some (ULeaf d) /\ is_discrete d = false).
  { intros x Hx. destruct (circuit_leaves_leaf g old x E) as (d & Hd); [now apply (Permutation_in _ (Ho old))|]. exists d. split; auto.
    destruct (is_discrete d) eqn:Ed; auto. exfalso. apply Hn. exists old, x, d. apply is_discrete_iff in Ed. auto. }
  revert L. generalize (order old). intros l. induction l as [|x l IH]; intros L; [reflexivity|]. cbn [replace_leaves].
  destruct (L x) as (d & Hx & Hd); [now left|]. assert (T := replace_turn g nx x d Hx). rewrite Hd in T. rewrite T. apply IH. intros; apply L; now right.
Qed.

(** What an exception leaves behind still says the same, but one discrete leaf is gone. *)
Theorem C65_left_behind order g t nx h : layered_circuit g t -> smooth dist_vars t -> all_leaves dist_ok t -> all_sums (Forall lw_ok) t ->
  (forall x, In x (node_ids g) -> (x < nx)%nat) -> (forall l, Permutation (order l) l) -> has_discrete_leaf g order ->
  (forall u d, node_kind g u = Some (ULeaf d) -> dist_ok d) ->
  replace_discrete order g nx = inr h ->
  same_answers g h t /\ exists u d, node_kind g u = Some (ULeaf d) /\ discrete d /\ ~ In u (node_ids h).
Proof.
  intros Hl Hs Hok Hw Hn Ho Hd Hdok H. destruct (C65_raises order g nx Ho Hd) as (h' & E & C). assert (h' = h) by congruence. subst h'.
  destruct C as (u & d & Hk & Hdis & Ea). assert (Hp : exists p, d = DSym (dvar d) p \/ d = DInt (dvar d) p) by (destruct Hdis as (v & p & [-> | ->]); simpl; eauto).
  destruct Hp as (p & Hp). destruct (C36_deterministic_sum g t u d p nx Hl Hs Hok Hw Hk Hp (Hdok u d Hk) Hn) as (g' & E' & Hu & A & B & _).
  rewrite E' in Ea. subst h. split; [split; auto|eauto].
Qed.

(** The circuit with the leaves "yes" and "no" of PropertiesInteraction.v. *)
Example own_discrete : has_discrete_leaf own_g (fun l => l).
Proof. exists [1; 2]%nat, 1%nat, yes. split; [reflexivity|]. split; [now left|]. split; [reflexivity|]. unfold discrete, yes. eauto. Qed.

Theorem C65_refuted : ~ C65_full.
Proof.
  intros H. destruct own_mountable as (Hl & _ & _ & _ & _ & Hn & Hs & _ & Hok & _ & Hw & _).
  destruct (H (fun l => l) own_g (PSum own_l) 5%nat (fun l => Permutation_refl l) Hl Hs Hok Hw) as (g' & nx' & E & _).
  { intros x Hx. apply Hn. now left. }
  destruct (C65_raises (fun l => l) own_g 5%nat (fun l => Permutation_refl l) own_discrete) as (h & E' & _). congruence.
Qed.

(** ** C66 *)

(** The sum unit's edges after mounting. *)
Definition pair_edge (self p : id) (f : num -> num) (ix : nat * ((num * id) * id)) : edge :=
  mkEdge self (p + fst ix)%nat (Some (f (fst (fst (snd ix))))).

(** [g'] is the mixture with the same weights whose i-th component is the product of the i-th subcircuits of both units. *)
Definition paired {D} (f : num -> num) (g' : graph D) (self : id) (p : nat) (l : list ((num * id) * id)) : Prop :=
  out_edges g' self = map (pair_edge self p f) (enumerate 0 l) /\
  forall i w own oth, nth_error l i = Some ((w, own), oth) ->
    node_kind g' (p + i)%nat = Some UProd /\ out_edges g' (p + i)%nat = [mkEdge (p + i) own None; mkEdge (p + i) oth None]%nat.

(** The situation: circuits [g] and [h] of their own, [self] and [other] their roots, new numbers from [nx] on. *)
Definition two_circuits {D} (dvars : D -> list nat) (g h : graph D) (self other : id) (nx : nat) (l : list ((num * id) * id)) : Prop :=
  wf g /\ wf h /\ In self (node_ids g) /\ In other (node_ids h) /\ (forall x, In x (node_ids g) -> ~ In x (node_ids h)) /\
  (forall x, In x (node_ids g) \/ In x (node_ids h) -> (x < nx)%nat) /\
  out_edges g self = map (fun x => mkEdge self (snd (fst x)) (Some (fst (fst x)))) l /\ ~ In self (map e_dst (g_edges g)) /\
  subcircuits h other = map snd l /\
  exists vs ws, unit_variables dvars g (S (length (g_nodes g))) self = Some vs /\ unit_variables dvars h (S (length (g_nodes h))) other = Some ws /\
    forall v, In v vs -> ~ In v ws.

Definition C66_full : Prop := forall (g h : graph dist) self other nx l, two_circuits dist_vars g h self other nx l ->
  exists g', mount_from_bayesian_network dist_vars g h self other nx = Some (g', (nx + length l)%nat) /\ paired (fun w => w) g' self nx l.

Section Loop.
Context {D : Type}.
Implicit Types g h : graph D.
Variable h : graph D.
Variable self : id.
Hypothesis Wh : wf h.
Hypothesis Hsh : ~ In self (node_ids h).

Lemma pair_loop l : forall g p dn, wf g -> embeds h g -> In self (node_ids g) -> ~ In self (map (fun x => snd (fst x)) l) ->
  (forall x, In x (node_ids g) \/ In x (node_ids h) -> (x < p)%nat) ->
  (forall x, In x l -> ~ In (snd (fst x)) (node_ids h) /\ In (snd x) (node_ids h)) ->
  out_edges g self = map (fun x => mkEdge self (snd (fst x)) (Some (fst (fst x)))) l ++ dn ->
  exists g', foldM (mount_pair h self) l (g, p) = Some (g', (p + length l)%nat) /\
    out_edges g' self = dn ++ map (pair_edge self p nlog) (enumerate 0 l) /\
    (forall x, In x (node_ids g) -> node_kind g' x = node_kind g x /\ (x <> self -> out_edges g' x = out_edges g x)) /\
    (forall i w own oth, nth_error l i = Some ((w, own), oth) ->
       node_kind g' (p + i)%nat = Some UProd /\ out_edges g' (p + i)%nat = [mkEdge (p + i) own None; mkEdge (p + i) oth None]%nat).
Proof.
  induction l as [|[[w own] oth] l IH]; intros g p dn W Em Hs Hself Hlt Hin Ho; cbn [foldM].
  - exists g. split; [now rewrite Nat.add_0_r|]. split; [cbn in *; now rewrite app_nil_r, Ho|]. split; [auto|]. intros [|i]; discriminate.
  - unfold mount_pair at 1.
    assert (Hp : ~ In p (node_ids g)) by (intros H; specialize (Hlt p (or_introl H)); lia).
    assert (Hph : ~ In p (node_ids h)) by (intros H; specialize (Hlt p (or_intror H)); lia).
    assert (Hown : In own (node_ids g)).
    { apply (wf_dst _ W (mkEdge self own (Some w))). apply (proj1 (out_edges_In g self _)). rewrite Ho. now left. }
    assert (W0 := add_node_wf g p UProd W). set (g0 := add_node g p UProd) in *.
    assert (O0 : forall x, out_edges g0 x = out_edges g x) by (intros x; apply add_node_out).
    assert (Er : existsb (is_edge self own) (g_edges g0) = true).
    { rewrite existsb_out, O0, Ho. cbn [map app existsb e_dst fst snd]. now rewrite Nat.eqb_refl. }
    destruct (remove_edge g0 self own) as [g1|] eqn:E1; [|unfold remove_edge in E1; rewrite Er in E1; discriminate].
    destruct (remove_edge_spec g0 self own g1 E1) as (R1 & R2 & R3). assert (W1 := R3 W0).
    assert (I1 : forall x, In x (node_ids g1) <-> In x (node_ids g) \/ x = p) by (intros x; unfold node_ids at 1; rewrite R2; apply add_node_ids).
    assert (ND : NoDup (map e_dst (out_edges g self))) by now apply out_NoDup.
    assert (O1 : out_edges g1 self = map (fun x => mkEdge self (snd (fst x)) (Some (fst (fst x)))) l ++ dn).
    { rewrite R1, Nat.eqb_refl, O0, Ho. cbn [map filter app e_dst fst snd]. rewrite Nat.eqb_refl. cbn [negb].
      rewrite Ho in ND. cbn [map app e_dst fst snd] in ND. apply NoDup_cons_iff in ND. destruct ND as [ND _].
      rewrite <- (filter_true (map _ l ++ dn)) at 2. apply filter_ext_in. intros e He. destruct (Nat.eqb_spec (e_dst e) own) as [Ee|]; [|reflexivity].
      exfalso. apply ND. rewrite <- Ee. now apply in_map. }
    assert (Nself : self <> p) by (intros ->; auto). assert (Nown : own <> p) by (intros ->; auto).
    set (g2a := add_edge g1 self p (Some (nlog w))). set (g2 := add_edge g2a p own None).
    assert (O2s : out_edges g2 self = map (fun x => mkEdge self (snd (fst x)) (Some (fst (fst x)))) l ++ dn ++ [mkEdge self p (Some (nlog w))]).
    { unfold g2. rewrite add_edge_out. destruct (Nat.eqb_spec self p); [contradiction|]. unfold g2a. rewrite add_edge_out, Nat.eqb_refl, O1.
      rewrite addl_absent; [now rewrite app_assoc|]. intros X. rewrite <- O1 in X. apply in_map_iff in X. destruct X as (e & Ee & He).
      rewrite R1, Nat.eqb_refl in He. apply filter_In in He. destruct He as [He _]. rewrite O0 in He. apply out_edges_In in He.
      apply Hp. rewrite <- Ee. now apply (wf_dst _ W). }
    assert (O1p : out_edges g1 p = []).
    { rewrite R1. destruct (Nat.eqb_spec p self); [congruence|]. rewrite O0. destruct (out_edges g p) as [|e es] eqn:X; [reflexivity|].
      exfalso. apply Hp. assert (He : In e (out_edges g p)) by (rewrite X; now left). apply out_edges_In in He. destruct He as [He <-]. now apply (wf_src _ W). }
    assert (O2p : out_edges g2 p = [mkEdge p own None]).
    { unfold g2. rewrite add_edge_out, Nat.eqb_refl. unfold g2a. rewrite add_edge_out. destruct (Nat.eqb_spec p self); [congruence|]. rewrite O1p. reflexivity. }
    assert (O2 : forall x, x <> self -> x <> p -> out_edges g2 x = out_edges g x).
    { intros x N1 N2. unfold g2. rewrite add_edge_out. destruct (Nat.eqb_spec x p); [contradiction|]. unfold g2a. rewrite add_edge_out.
      destruct (Nat.eqb_spec x self); [contradiction|]. rewrite R1. destruct (Nat.eqb_spec x self); [contradiction|]. apply O0. }
    assert (I2 : forall x, In x (node_ids g2) <-> In x (node_ids g) \/ x = p).
    { intros x. unfold g2. rewrite add_edge_ids. unfold g2a. rewrite add_edge_ids. apply I1. }
    assert (W2 : wf g2).
    { unfold g2. apply add_edge_wf; [unfold g2a; apply add_edge_wf; [exact W1| |]| |]; rewrite ?I1; auto; unfold g2a; rewrite add_edge_ids, I1; auto. }
    assert (K2 : forall x, x <> p -> node_kind g2 x = node_kind g x).
    { intros x N. unfold g2. rewrite add_edge_kind. unfold g2a. rewrite add_edge_kind. unfold node_kind at 1. rewrite R2. now apply add_node_kind_other. }
    assert (K2p : node_kind g2 p = Some UProd).
    { unfold g2. rewrite add_edge_kind. unfold g2a. rewrite add_edge_kind. unfold node_kind. rewrite R2. now apply add_node_kind_new. }
    assert (Em2 : embeds h g2).
    { intros x Hx Hg. apply I2 in Hg. destruct Hg as [Hg| ->]; [|contradiction]. rewrite K2, O2; try (intros ->; auto; contradiction). now apply Em. }
    destruct (Hin ((w, own), oth)) as [Hoh Hoth]; [now left|]. cbn [fst snd] in Hoh, Hoth.
    destruct (mount_spec g2 h oth W2 Wh Hoth Em2) as (g3 & E3 & W3 & I3 & C3 & Em3). rewrite E3.
    set (g4 := add_edge g3 p oth None).
    assert (Hp2 : In p (node_ids g2)) by (apply I2; auto).
    assert (O4p : out_edges g4 p = [mkEdge p own None; mkEdge p oth None]).
    { unfold g4. rewrite add_edge_out, Nat.eqb_refl. destruct (C3 p Hp2) as [_ ->]. rewrite O2p. rewrite addl_absent; [reflexivity|].
      intros [X|[]]. cbn in X. subst oth. contradiction. }
    assert (O4 : forall x, x <> p -> out_edges g4 x = out_edges g3 x) by (intros x N; unfold g4; rewrite add_edge_out; destruct (Nat.eqb_spec x p); [contradiction|reflexivity]).
    destruct (IH g4 (S p) (dn ++ [mkEdge self p (Some (nlog w))])) as (g' & F1 & F2 & F3 & F4).
    + unfold g4. apply add_edge_wf; [exact W3|apply I3; auto|apply I3; right; constructor].
    + intros x Hx Hg. unfold g4 in Hg. rewrite add_edge_ids in Hg. unfold g4 at 1. rewrite add_edge_kind, O4 by (intros ->; contradiction). now apply Em3.
    + unfold g4. rewrite add_edge_ids. apply I3. left. apply I2. auto.
    + intros X. apply Hself. now right.
    + intros x [Hx|Hx].
      * unfold g4 in Hx. rewrite add_edge_ids in Hx. apply I3 in Hx. destruct Hx as [Hx|Hx].
        -- apply I2 in Hx. destruct Hx as [Hx| ->]; [|lia]. specialize (Hlt x (or_introl Hx)). lia.
        -- assert (Hxh : In x (node_ids h)) by (destruct Hx as [|v e Hv He _]; [exact Hoth|now apply (wf_dst _ Wh)]). specialize (Hlt x (or_intror Hxh)). lia.
      * specialize (Hlt x (or_intror Hx)). lia.
    + intros x Hx. apply Hin. now right.
    + rewrite O4 by auto. destruct (C3 self) as [_ ->]; [apply I2; auto|]. exact O2s.
    + exists g'. split; [rewrite F1; f_equal; f_equal; cbn; lia|]. split; [|split].
      * rewrite F2, <- app_assoc. f_equal. cbn [enumerate map app]. unfold pair_edge at 2. cbn [fst snd]. rewrite Nat.add_0_r. f_equal.
        clear. assert (G : forall k, map (pair_edge self (S p) nlog) (enumerate k l) = map (pair_edge self p nlog) (enumerate (S k) l)).
        { induction l as [|x l IHl]; intros k; [reflexivity|]. cbn [enumerate map]. rewrite IHl. f_equal. unfold pair_edge. cbn [fst snd]. f_equal. lia. }
        apply G.
      * intros x Hx. assert (Nx : x <> p) by (intros ->; auto). assert (Hx2 : In x (node_ids g2)) by (apply I2; auto).
        destruct (F3 x) as [F3a F3b]. { unfold g4. rewrite add_edge_ids. apply I3. auto. }
        rewrite F3a. unfold g4. rewrite add_edge_kind. destruct (C3 x Hx2) as [-> C3b]. split; [now apply K2|].
        intros Ns. rewrite F3b, O4, C3b by auto. now apply O2.
      * intros [|i] w' own' oth' Hn.
        -- cbn in Hn. injection Hn as <- <- <-. rewrite Nat.add_0_r. destruct (F3 p) as [F3a F3b].
           { unfold g4. rewrite add_edge_ids. apply I3. auto. }
           rewrite F3a, F3b by congruence. split; [|exact O4p]. unfold g4. rewrite add_edge_kind. now destruct (C3 p Hp2) as [-> _].
        -- cbn in Hn. specialize (F4 i w' own' oth' Hn). now rewrite <- Nat.add_succ_comm.
Qed.
End Loop.

(** The structure is as intended, but every weight is the logarithm of the logarithm. *)
Theorem C66_structure {D} (dvars : D -> list nat) g h self other nx l : two_circuits dvars g h self other nx l ->
  exists g', mount_from_bayesian_network dvars g h self other nx = Some (g', (nx + length l)%nat) /\ paired nlog g' self nx l.
Proof.
  intros (Wg & Wh & Hs & Ho & Hap & Hlt & Eo & Hr & Es & vs & ws & Ev & Ew & Hd).
  unfold mount_from_bayesian_network. rewrite Ev, Ew.
  assert (X : existsb (fun v => existsb (Nat.eqb v) ws) vs = false).
  { apply not_true_iff_false. intros X. apply existsb_exists in X. destruct X as (v & Hv & X). apply existsb_eqb_In in X. exact (Hd v Hv X). }
  rewrite X. unfold subcircuits at 1. rewrite Es, Eo, !map_length, Nat.eqb_refl.
  assert (L : log_weighted_subcircuits g self = Some (map fst l)).
  { unfold log_weighted_subcircuits. rewrite Eo. clear. induction l as [|[[w own] oth] l IH]; [reflexivity|]. cbn in *. now rewrite IH. }
  rewrite L. replace (combine (map fst l) (map snd l)) with l by (clear; induction l as [|[a b] l IH]; cbn; congruence).
  assert (Hin : forall e, In e (out_edges g self) -> In (e_dst e) (node_ids g) /\ e_dst e <> self).
  { intros e He. apply out_edges_In in He. destruct He as [He _]. split; [now apply (wf_dst _ Wg)|]. intros E. apply Hr. rewrite <- E. now apply in_map. }
  assert (Hdst : forall x, In x l -> In (snd (fst x)) (node_ids g) /\ snd (fst x) <> self).
  { intros x Hx. apply (Hin (mkEdge self (snd (fst x)) (Some (fst (fst x))))). rewrite Eo. exact (in_map (fun x => mkEdge self (snd (fst x)) (Some (fst (fst x)))) _ _ Hx). }
  destruct (pair_loop h self Wh (Hap self Hs) l g nx []) as (g' & F1 & F2 & _ & F4); auto.
  - intros x Hx Hg. exfalso. exact (Hap x Hg Hx).
  - intros Y. apply in_map_iff in Y. destruct Y as (x & E & Hx). destruct (Hdst x Hx). auto.
  - intros x Hx. split; [apply Hap; now apply Hdst|]. assert (In (snd x) (subcircuits h other)) by (rewrite Es; now apply in_map).
    unfold subcircuits in H. apply in_map_iff in H. destruct H as (e & <- & He). apply out_edges_In in He. now apply (wf_dst _ Wh).
  - now rewrite app_nil_r.
  - exists g'. split; [exact F1|]. split; [exact F2|exact F4].
Qed.

(** So no weight of a normalised mixture survives: all of them become nan or minus infinity. *)
Theorem C66_weights_lost {D} (dvars : D -> list nat) g h self other nx l : two_circuits dvars g h self other nx l ->
  Forall (fun x => exists r, fst (fst x) = Fin r /\ r <= 0) l ->
  exists g', mount_from_bayesian_network dvars g h self other nx = Some (g', (nx + length l)%nat) /\ length (out_edges g' self) = length l /\
    Forall (fun e => e_lw e = Some NaN \/ e_lw e = Some NInf) (out_edges g' self).
Proof.
  intros H F. destruct (C66_structure dvars g h self other nx l H) as (g' & E & O & _). exists g'. split; [exact E|]. rewrite O. split.
  { rewrite map_length. rewrite <- (map_length snd), (proj1 (enumerate_spec l 0)). reflexivity. }
  apply Forall_forall. intros e He. apply in_map_iff in He. destruct He as ([i x] & <- & Hx). cbn [pair_edge e_lw fst snd].
  apply enumerate_In in Hx. rewrite Forall_forall in F. destruct (F x (proj2 Hx)) as (r & Er & Hr0). cbn [fst snd]. rewrite Er. unfold nlog.
  destruct (total_order_T r 0) as [[H1|H1]|H1]; auto. lra.
Qed.

(** Two mixtures of two components each (PropertiesInteraction.v). *)
Definition pair_comps : list ((num * id) * id) := [((nlog (Fin (1/4)), 1), 4); ((nlog (Fin (3/4)), 2), 5)]%nat.
Example pair_two_circuits : two_circuits dist_vars pair_g pair_h 0%nat 3%nat 6%nat pair_comps.
Proof.
  destruct pair_mountable as ((Wg & _) & (Wh & _) & _ & _ & Ap & Fr & _). split; [exact Wg|]. split; [exact Wh|]. split; [now left|]. split; [now left|].
  split; [exact Ap|]. split; [exact Fr|]. split; [reflexivity|]. split; [cbn -[nlog]; intuition discriminate|]. split; [reflexivity|].
  exists [0%nat], [1%nat]. split; [reflexivity|]. split; [reflexivity|]. intros v [<-|[]] [H|[]]. discriminate.
Qed.

Lemma pair_comps_log : Forall (fun x => exists r, fst (fst x) = Fin r /\ r <= 0) pair_comps.
Proof.
  repeat constructor; cbn [fst]; rewrite nlog_Fin_pos by lra; eexists; (split; [reflexivity|]); rewrite <- ln_1; left; apply ln_increasing; lra.
Qed.

Theorem C66_refuted : ~ C66_full.
Proof.
  intros H. destruct (H _ _ _ _ _ _ pair_two_circuits) as (g' & E & O & _).
  destruct (C66_weights_lost _ _ _ _ _ _ _ pair_two_circuits pair_comps_log) as (g'' & E' & _ & F).
  assert (g'' = g') by congruence. subst g''. rewrite O in F. cbn [pair_comps enumerate map] in F. apply Forall_inv in F.
  unfold pair_edge in F. cbn [e_lw fst snd] in F. rewrite nlog_Fin_pos in F by lra. destruct F; discriminate.
Qed.

Print Assumptions C65_raises.
Print Assumptions C65_untouched.
Print Assumptions C65_left_behind.
Print Assumptions C65_refuted.
Print Assumptions C66_structure.
Print Assumptions C66_weights_lost.
Print Assumptions C66_refuted.
