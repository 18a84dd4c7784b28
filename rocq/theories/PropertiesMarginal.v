(** * Property C12: marginalisation *)
From Coq Require Import List Arith Bool Lia Reals Lra ZArith Sorting.Sorted.
From Verif Require Import Num Graph GraphFacts Spec SpecFacts Circuit EvalFacts VarFacts PropertiesQuery Interval GaussInt Dist DistFacts
  TreeProb PropertiesProb Simplify SimplifyFacts TreeLocal DagFacts PropertiesSimplify Restrict MarginalFacts.
Import ListNotations.
Local Open Scope R_scope.

(** [e'] is the event [e] on the variables of [vs], extended by the full domain for all other variables. *)
Definition extends_by_domain (t : pc dist) (vs : list nat) (e : sevent) : Prop :=
  all_leaves (fun d => ~ In (dvar d) vs -> covers d (e (dvar d))) t.

(** The marginal of a circuit with tree [t]: [marginal_in_place] answers None iff no variable of [vs] occurs; otherwise it
    answers a circuit whose variables are the circuit's variables in [vs] and that gives every event over [vs] the
    probability that the original circuit gives to the event extended by full domains. *)
Definition marginal_correct (vs : list nat) (g : graph dist) (t : pc dist) : Prop :=
  exists res, marginal_in_place (fun _ => false) marginal1 vs g = Some res /\
    (res = None <-> forall v, In v vs -> ~ mentions dist_vars t v) /\
    (forall g', res = Some g' ->
      (exists vars, circuit_variables dist_vars g' = Some vars /\ StronglySorted lt vars /\
         forall v, In v vars <-> mentions dist_vars t v /\ In v vs) /\
      forall e, event_ok t e -> extends_by_domain t vs e -> exists p, answers g e p /\ answers g' e p).

(** A valid normalised tree-shaped circuit over the library's distributions. *)
Record valid_tree (g : graph dist) (r : id) (t : pc dist) : Prop := {
  vt_tree : tree_shaped g r; vt_leaf : leaves_terminal g; vt_unfolds : unfolds g r t; vt_norm : normalised t;
  vt_smooth : smooth dist_vars t; vt_dec : decomposable dist_vars t; vt_ok : all_leaves dist_ok t }.

Definition C12_full : Prop := forall vs g r t, valid_tree g r t -> marginal_correct vs g t.

Lemma tree_layered {D} (g : graph D) r t : tree_circuit g r t -> layered_circuit g t.
Proof.
  intros [T L U F]. split; [apply T|]. split; auto. exists r. split; [now apply tree_root|]. split; [now apply tree_graded|auto].
Qed.

Lemma fin_ok t : fin_sums t -> all_sums (D := dist) (Forall lw_ok) t.
Proof. apply all_sums_impl. intros l. apply Forall_impl. intros [| |x|]; simpl; tauto. Qed.

(** Proved part: all valid normalised trees with finite log weights, of any size.  Missing: trees with a log weight of
    minus infinity, where the claim is false. *)
Theorem C12_marginal_partial vs g r t : valid_tree g r t -> fin_sums t -> marginal_correct vs g t.
Proof.
  intros [T L U N S Dc O] F. assert (H : tree_circuit g r t) by (constructor; auto).
  set (kp := fun d => existsb (Nat.eqb (dvar d)) vs).
  assert (Hu : all_leaves (uni kp dist_vars vs) t) by (apply all_leaves_True; intros d; exists (dvar d); auto).
  pose proof (marginal_meaning kp (fun _ => false) dist_vars marginal1 vs (fun d => eq_refl) g r t H) as HM.
  specialize (HM (all_leaves_True _ t (fun _ => eq_refl)) N S Dc Hu). pose proof (survives_iff kp dist_vars vs t Hu) as Hs.
  destruct (survives kp t) eqn:Es.
  - destruct HM as [g' [r' [t' [H1 [H2 [H3 [H4 [H5 [H6 [H7 H8]]]]]]]]]]. exists (Some g'). split; auto. split.
    + split; [discriminate|]. intros Hno. destruct (proj1 Hs eq_refl) as [v [Hv Hm]]. exfalso. eapply Hno; eauto.
    + intros g0 E. injection E as <-. split.
      * destruct (circuit_variables_spec dist_vars g' r' t') as [vars [V1 [V2 V3]]]; [apply tree_root, H2|apply H2|auto|].
        exists vars. split; [auto|split; [auto|]]. intros v. rewrite V3. apply H8.
      * intros e He Hx. exists (semR (fun d => probR d (e (dvar d))) t). split.
        -- apply answers_semR; auto; [eapply tree_layered; eauto|now apply fin_ok].
        -- assert (E : semR (fun d => probR d (e (dvar d))) t = semR (fun d => probR d (e (dvar d))) t').
           { assert (EN : semN (fun d => Fin (probR d (e (dvar d)))) t' = semN (fun d => Fin (probR d (e (dvar d)))) t).
             { apply H3. eapply all_leaves_impl; [|exact (all_leaves_and _ _ _ O (all_leaves_and _ _ _ He Hx))].
               simpl. intros d [A1 [A2 A3]]. split; [now apply probR_nonneg|]. intros Hk. rewrite probR_total; auto. apply A3.
               intros Hin. unfold kp in Hk. apply not_true_iff_false in Hk. apply Hk. now apply existsb_mem. }
             rewrite !semN_semR in EN; [injection EN as EN; auto|now apply fin_ok|apply fin_ok, H2]. }
           rewrite E. apply answers_semR; auto; [eapply tree_layered; eauto|apply fin_ok, H2|now apply H4].
  - exists None. split; auto. split; [|discriminate]. split; [|auto]. intros _ v Hv Hm. assert (false = true) by (apply Hs; eauto). discriminate.
Qed.

(** A zero-weight edge makes the marginal circuit lose its root, so that it answers no query. *)
Definition zero_marginal : graph dist :=
  mkGraph [(0, USum); (1, ULeaf (DSym 0 [(0%Z, 1%R)])); (2, ULeaf (DSym 0 [(1%Z, 1%R)]))]%nat
    [mkEdge 0 1 (Some NInf); mkEdge 0 2 (Some (Fin 0))]%nat.
Definition zero_marginal_tree : pc dist := PSum [(NInf, PLeaf (DSym 0 [(0%Z, 1)])); (Fin 0, PLeaf (DSym 0 [(1%Z, 1)]))].

Lemma zero_marginal_valid : valid_tree zero_marginal 0%nat zero_marginal_tree.
Proof.
  constructor.
  - split; [concrete_wf|]. split; [exists (fun u => 5 - u)%nat; on_edges|].
    split; [cbn; tauto|]. split; [cbn; repeat constructor; cbn; intuition lia|].
    split; [|cbn; intuition lia]. cbn. intros u H Hn. repeat (destruct H as [<-|H]; [tauto|]). tauto.
  - intros e d H. repeat destruct H as [<-|H]; cbn; try discriminate. destruct H.
  - unfold zero_marginal_tree. unf.
  - cbn. repeat split; try (repeat constructor). cbn. rewrite exp_0. lra.
  - cbn. repeat split; intuition.
  - cbn. tauto.
  - cbn. repeat split; try lra; repeat constructor; cbn; try lra; intuition discriminate.
Qed.

Theorem C12_marginal_refuted : ~ C12_full.
Proof.
  intros H. destruct (H [0%nat] _ _ _ zero_marginal_valid) as [res [H1 [_ H2]]].
  cbn in H1. injection H1 as <-. destruct (H2 _ eq_refl) as [[vars [H3 _]] _]. cbn in H3. discriminate.
Qed.

(** A concrete case: the mixture [demo_graph] over the variables 0 and 1. *)
Example demo_valid_tree : valid_tree demo_graph 0%nat demo_tree /\ fin_sums demo_tree.
Proof.
  destruct demo_ok as [[H0 [Hl [r [Hr [_ Hu]]]]] [H2 [H3 [H4 [H5 _]]]]]. cbn in Hr. injection Hr as <-.
  split; [|cbn; repeat split; auto; repeat constructor]. constructor; auto.
  split; auto. split; [exists (fun u => 10 - u)%nat; on_edges|].
  split; [cbn; tauto|]. split; [cbn; repeat constructor; cbn; intuition lia|].
  split; [|cbn; intuition lia]. cbn. intros u H Hn. repeat (destruct H as [<-|H]; [tauto|]). tauto.
Qed.

Example demo_marginal : marginal_correct [1; 7]%nat demo_graph demo_tree.
Proof. destruct demo_valid_tree. eapply C12_marginal_partial; eauto. Qed.

(** Here products with a single remaining child disappear: two integer leaves below the root remain. *)
Example demo_marginal_units : exists g', marginal_in_place (fun _ => false) marginal1 [1; 7]%nat demo_graph = Some (Some g') /\ node_ids g' = [0; 4; 6]%nat.
Proof. eexists. split; reflexivity. Qed.

Example demo_marginal_none : marginal_in_place (fun _ => false) marginal1 [7%nat] demo_graph = Some None.
Proof. reflexivity. Qed.

Print Assumptions C12_marginal_partial.
Print Assumptions C12_marginal_refuted.
