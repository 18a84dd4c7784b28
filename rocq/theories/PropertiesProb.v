(** * Properties C03, C04, C05: probabilities of events and cdfs *)
From Coq Require Import List Arith Bool Lia Reals Lra ZArith Sorting.Sorted.
From Verif Require Import Num Graph GraphFacts Spec SpecFacts Circuit EvalFacts VarFacts Interval GaussInt Dist DistFacts TreeProb.
Import ListNotations.
Local Open Scope R_scope.

(** A circuit the layered pass evaluates: proper graph, one root, all root-to-unit paths of equal length. *)
Definition layered_circuit {D} (g : graph D) (t : pc D) : Prop :=
  wf g /\ leaves_terminal g /\ exists r, root g = Some r /\ graded g r /\ unfolds g r t.

(** Updating an event at one variable. *)
Definition eset (e : sevent) (v : nat) (A : evset) : sevent := fun w => if (w =? v)%nat then A else e w.

(** Every leaf's variable gets an assignment of the right kind. *)
Definition event_ok (t : pc dist) (e : sevent) : Prop := all_leaves (fun d => evset_ok d (e (dvar d))) t.

(** [e] assigns every variable its whole domain. *)
Definition event_full (t : pc dist) (e : sevent) : Prop := all_leaves (fun d => covers d (e (dvar d))) t.

(** What the code answers to [probability_of_simple_event(e)] after history [st]. *)
Definition answers (g : graph dist) (e : sevent) (p : R) : Prop :=
  forall st, exists st', probability_of_simple_event (dist_prob e) g st = Some (Fin p, st').

Lemma answers_semR g t e : layered_circuit g t -> all_sums (Forall lw_ok) t -> all_leaves dist_ok t -> event_ok t e ->
  answers g e (semR (fun d => probR d (e (dvar d))) t).
Proof.
  intros [Hwf [Hlt [r [Hr [Hg Hu]]]]] Hw Hok He st.
  destruct (probability_correct (dist_prob e) (fun d => Fin (probR d (e (dvar d)))) g r t st Hwf Hlt Hr Hg Hu) as [st' H].
  - eapply all_leaves_impl; [|apply (all_leaves_and _ _ _ Hok He)]. simpl. intros d [H1 H2]. now apply prob1_R.
  - exists st'. rewrite H. now rewrite semN_semR.
Qed.

(** ** C03 *)

Section C03.
Variables (g : graph dist) (t : pc dist).
Hypothesis Hlay : layered_circuit g t.
Hypothesis Hnorm : normalised t.
Hypothesis Hok : all_leaves dist_ok t.

(** Every answer is a probability, and the answer does not depend on the history. *)
Theorem C03_range e : event_ok t e -> exists p, answers g e p /\ 0 <= p <= 1.
Proof.
  intros He. eexists. split; [apply answers_semR; eauto using normalised_lw_ok|]. split.
  - apply semR_nonneg. eapply all_leaves_impl; [|apply (all_leaves_and _ _ _ Hok He)]. simpl. intros d [H1 H2].
    now apply probR_nonneg.
  - apply semR_le_1; auto. eapply all_leaves_impl; [|apply (all_leaves_and _ _ _ Hok He)]. simpl. intros d [H1 H2].
    split; [now apply probR_nonneg|now apply probR_le_1].
Qed.

Theorem C03_total e : event_ok t e -> event_full t e -> answers g e 1.
Proof.
  intros He Hf. rewrite <- (semR_one (fun d => probR d (e (dvar d))) t Hnorm).
  - apply answers_semR; auto using normalised_lw_ok.
  - eapply all_leaves_impl; [|apply (all_leaves_and _ _ _ Hok (all_leaves_and _ _ _ He Hf))]. simpl. intros d [H1 [H2 H3]].
    now apply probR_total.
Qed.

Theorem C03_monotone e e' p p' : event_ok t e -> event_ok t e' ->
  (forall v x, in_evset (e v) x = true -> in_evset (e' v) x = true) ->
  answers g e p -> answers g e' p' -> p <= p'.
Proof.
  intros He He' Hsub Hp Hp'.
  assert (E : forall e0 p0, event_ok t e0 -> answers g e0 p0 -> p0 = semR (fun d => probR d (e0 (dvar d))) t).
  { intros e0 p0 He0 H0. destruct (H0 empty_store) as [s1 H1].
    destruct (answers_semR g t e0 Hlay (normalised_lw_ok t Hnorm) Hok He0 empty_store) as [s2 H2]. congruence. }
  rewrite (E e p), (E e' p') by auto. apply semR_mono.
  eapply all_leaves_impl; [|apply (all_leaves_and _ _ _ Hok (all_leaves_and _ _ _ He He'))]. simpl. intros d [H1 [H2 H3]].
  split; [now apply probR_nonneg|]. apply probR_mono; auto.
Qed.

(** Cutting the assignment of one variable of the circuit into two disjoint parts: the answers add up. *)
Theorem C03_additive e v A B C p pA pB :
  smooth dist_vars t -> decomposable dist_vars t -> mentions dist_vars t v ->
  (forall x, in_evset C x = in_evset A x || in_evset B x) -> (forall x, in_evset A x && in_evset B x = false) ->
  event_ok t (eset e v A) -> event_ok t (eset e v B) -> event_ok t (eset e v C) ->
  answers g (eset e v C) p -> answers g (eset e v A) pA -> answers g (eset e v B) pB -> p = pA + pB.
Proof.
  intros Hs Hd Hm H1 H2 HA HB HC Hp HpA HpB.
  assert (E : forall e0 p0, event_ok t e0 -> answers g e0 p0 -> p0 = semR (fun d => probR d (e0 (dvar d))) t).
  { intros e0 p0 He0 H0. destruct (H0 empty_store) as [s1 H1'].
    destruct (answers_semR g t e0 Hlay (normalised_lw_ok t Hnorm) Hok He0 empty_store) as [s2 H2']. congruence. }
  rewrite (E _ _ HC Hp), (E _ _ HA HpA), (E _ _ HB HpB).
  apply (semR_add dist_vars v (fun d => probR d (eset e v A (dvar d))) (fun d => probR d (eset e v B (dvar d)))
           (fun d => probR d (eset e v C (dvar d))) t); auto.
  eapply all_leaves_impl; [|apply (all_leaves_and _ _ _ Hok (all_leaves_and _ _ _ HA (all_leaves_and _ _ _ HB HC)))].
  simpl. intros d [O [OA [OB OC]]]. split; intros Hin.
  - destruct Hin as [E'|[]]. unfold eset in *. rewrite E', Nat.eqb_refl in *. now apply probR_split.
  - unfold eset in *. destruct (Nat.eqb_spec (dvar d) v) as [E'|_]; [tauto|auto].
Qed.
End C03.

(** ** C04: the probability of an interval under a continuous distribution depends only on its points. *)
Theorem C04_interval_pointset d A B : is_cont d -> dist_ok d -> interval_ok A -> interval_ok B -> A <> [] -> B <> [] ->
  (forall x, in_interval A x = in_interval B x) -> prob1 d (EInt A) = prob1 d (EInt B).
Proof.
  intros Hc Hok HA HB HnA HnB H.
  assert (evset_ok d (EInt A)) by (destruct d; simpl in *; tauto).
  assert (evset_ok d (EInt B)) by (destruct d; simpl in *; tauto).
  rewrite !prob1_R; auto. do 2 f_equal. apply probR_ext; auto.
Qed.

(** The same for the cdf-difference formula with an arbitrary cdf, monotone or not. *)
Theorem C04_any_cdf (F : num -> R) A B : interval_ok A -> interval_ok B ->
  (forall x, in_interval A x = in_interval B x) ->
  Rsum (map (fun i => F (hi i) - F (lo i)) A) = Rsum (map (fun i => F (hi i) - F (lo i)) B).
Proof. apply (measure_pointset F). Qed.

(** [0,2) and [0,1] u (1,2) *)
Example C04_example : interval_ok [iclosed_open 0 2] /\ interval_ok [iclosed 0 1; iopen 1 2] /\
  (forall x, in_interval [iclosed_open 0 2] x = in_interval [iclosed 0 1; iopen 1 2] x) /\
  prob1 (DGauss 0 0 1) (EInt [iclosed_open 0 2]) = prob1 (DGauss 0 0 1) (EInt [iclosed 0 1; iopen 1 2]).
Proof.
  assert (H1 : interval_ok [iclosed_open 0 2]).
  { split; [|simpl; auto]. constructor; [|constructor]. repeat split; try discriminate. left. simpl. lra. }
  assert (H2 : interval_ok [iclosed 0 1; iopen 1 2]).
  { split.
    - constructor; [|constructor; [|constructor]]; repeat split; try discriminate; left; simpl; lra.
    - simpl. repeat split; auto. intros j [<-|[]] x. unfold in_sint, above, below. simpl. rb; simpl; intuition; try discriminate; lra. }
  assert (H3 : forall x, in_interval [iclosed_open 0 2] x = in_interval [iclosed 0 1; iopen 1 2] x).
  { intros x. unfold in_interval, in_sint, above, below. simpl. rb; simpl; auto; lra. }
  repeat split; try apply H1; try apply H2; auto.
  apply C04_interval_pointset; simpl; auto; try lra; discriminate.
Qed.

(** ** C05 *)

(** The event "every variable is at most its coordinate of x": (-inf, x_v]. *)
Definition below_event (x : nat -> R) : sevent := fun v => EInt [mkSint NInf (Fin (x v)) false true].

Definition numeric (d : dist) : Prop := match d with DSym _ _ => False | _ => True end.

(** The claim for one circuit: the answers to cdf(x) and to probability(below x) agree. *)
Definition cdf_consistent (g : graph dist) (t : pc dist) : Prop :=
  forall x, exists p vars, answers g (below_event x) p /\ circuit_variables dist_vars g = Some vars /\
    StronglySorted lt vars /\ (forall v, In v vars <-> mentions dist_vars t v) /\
    forall st, exists st', cdf dist_vars dist_cdf g (map x vars) st = Some (Fin p, st').

Definition C05_full : Prop := forall g t, layered_circuit g t -> smooth dist_vars t -> all_sums (Forall lw_ok) t ->
  all_leaves dist_ok t -> all_leaves numeric t -> cdf_consistent g t.

(** Integer dictionaries listed in ascending order of their keys. *)
Definition sorted_dict (d : dist) : Prop := match d with DInt _ p => StronglySorted Z.lt (keys p) | _ => True end.

Lemma below_ok d a : evset_ok d (EInt [mkSint NInf (Fin a) false true]) <-> numeric d.
Proof.
  assert (interval_ok [mkSint NInf (Fin a) false true]).
  { split; [|simpl; auto]. constructor; [|constructor]. repeat split; try discriminate. left. simpl. auto. }
  destruct d; simpl; try tauto; split; auto; intros _; split; auto; discriminate.
Qed.

Lemma int_cdf_sorted p x : StronglySorted Z.lt (keys p) -> forall acc,
  int_cdf_loop x p x acc = acc + Rsum (map (fun kv => ind (Rleb (IZR (fst kv)) x) * snd kv) p).
Proof.
  induction p as [|[k q] p IH]; intros Hs acc; simpl; [lra|]. simpl in Hs. inversion Hs as [|? ? Hs' Hk]; subst.
  destruct (Rltb_spec x (IZR k)).
  - destruct (Rleb_spec (IZR k) x); [lra|]. rewrite Rsum_zero; [simpl; lra|]. intros [k' q'] Hin. simpl.
    rewrite Forall_forall in Hk. assert (Hlt : (k < k')%Z) by (apply Hk; apply in_map_iff; exists (k', q'); auto).
    apply IZR_lt in Hlt. destruct (Rleb_spec (IZR k') x); simpl; lra.
  - rewrite IH by auto. destruct (Rleb_spec (IZR k) x); simpl; lra.
Qed.

Lemma leaf_cdf_prob d a : dist_ok d -> numeric d -> sorted_dict d ->
  cdf1 d (Fin a) = Some (Fin (probR d (EInt [mkSint NInf (Fin a) false true]))).
Proof.
  intros Hok Hn Hs.
  assert (Hc : is_cont d -> cdf1 d (Fin a) = Some (Fin (measure (cdfR d) [mkSint NInf (Fin a) false true]))).
  { intros Hc. pose proof (continuous_cdf_R d (Fin a) Hc Hok ltac:(discriminate)) as E. unfold continuous_cdf in E.
    unfold measure, delta. cbn [map Rsum fold_right lo hi]. rewrite cdfR_NInf by auto.
    destruct (cdf1 d (Fin a)); [|discriminate]. rewrite E. do 2 f_equal. ring. }
  destruct d as [v i|v l c|v mu s|v i mu s|v p|v p]; simpl in Hn; try tauto; try (apply Hc; exact I).
  - simpl. unfold in_sint, above, below. simpl. destruct (Rleb_spec l a); reflexivity.
  - simpl in *. rewrite int_cdf_sorted by auto. do 2 f_equal. rewrite Rplus_0_l. apply Rsum_ext. intros kv _.
    unfold in_sint, above, below. simpl. now rewrite orb_false_r.
Qed.

(** Missing: integer leaves whose dictionary is not in ascending order; there the claim is false. *)
Theorem C05_cdf_partial g t : layered_circuit g t -> smooth dist_vars t -> all_sums (Forall lw_ok) t ->
  all_leaves dist_ok t -> all_leaves numeric t -> all_leaves sorted_dict t -> cdf_consistent g t.
Proof.
  intros Hl Hs Hw Hok Hn Hso x.
  assert (He : event_ok t (below_event x)).
  { eapply all_leaves_impl; [|exact Hn]. intros d Hd. now apply below_ok. }
  exists (semR (fun d => probR d (below_event x (dvar d))) t).
  assert (Hl' := Hl). destruct Hl' as [Hwf [Hlt [r [Hr [Hg Hu]]]]].
  destruct (circuit_variables_spec dist_vars g r t Hr Hu Hs) as [vars [Hv1 [Hv2 Hv3]]].
  exists vars. split; [now apply answers_semR|]. repeat (split; auto); try apply Hv3. intros st.
  destruct (cdf_correct dist_vars dist_cdf g r t x (fun d => Fin (probR d (below_event x (dvar d)))) st)
    as [vars' [H1 [_ [_ [st' H4]]]]]; auto.
  - eapply all_leaves_impl; [|apply (all_leaves_and _ _ _ Hok (all_leaves_and _ _ _ Hn Hso))]. simpl.
    intros d [H1 [H2 H3]]. now apply leaf_cdf_prob.
  - assert (vars' = vars) by congruence. subst vars'. exists st'. rewrite H4. now rewrite semN_semR.
Qed.

(** Witness: one integer leaf with dictionary {2: 1/2, 1: 1/2}; cdf(1) is 0 but P(X <= 1) is 1/2. *)
Definition unsorted : dist := DInt 0 [(2%Z, 1/2); (1%Z, 1/2)].
Definition leaf_circuit (d : dist) : graph dist := mkGraph [(0%nat, ULeaf d)] [].

Lemma leaf_layered d : layered_circuit (leaf_circuit d) (PLeaf d).
Proof.
  split; [|split].
  - constructor; cbn; try (repeat constructor; cbn; tauto); tauto.
  - intros e d' [].
  - exists 0%nat. split; [reflexivity|]. split; [|now constructor]. exists (fun _ => 0%nat). split; auto. intros e [].
Qed.

Theorem C05_cdf_refuted : ~ C05_full.
Proof.
  intros H. destruct (H (leaf_circuit unsorted) (PLeaf unsorted) (leaf_layered _)) with (x := fun _ : nat => 1)
    as [p [vars [Hp [Hv [_ [_ Hc]]]]]]; simpl; auto.
  - split; [split|]; simpl.
    + constructor; [simpl; intros [H'|[]]; discriminate|]. constructor; [simpl; tauto|constructor].
    + repeat constructor; lra.
    + lra.
  - destruct (Hp empty_store) as [s1 E1]. vm_compute in Hv. injection Hv as <-.
    destruct (Hc empty_store) as [s2 E2].
    unfold cdf in E2. cbn in E2. destruct (Rltb_spec 1 2); [|lra]. injection E2 as E2 _.
    unfold probability_of_simple_event in E1. cbn in E1. unfold in_sint, above, below in E1. cbn in E1.
    destruct (Rleb_spec 2 1); [lra|]. destruct (Rleb_spec 1 1); [|lra]. cbn in E1. injection E1 as E1 _. lra.
Qed.

(** ** A concrete circuit for the theorems above: a mixture of products of a Gaussian, a uniform and integer leaves. *)
Definition demo_tree : pc dist :=
  PSum [(Fin (ln (1/4)), PProd [PLeaf (DGauss 0 1 2); PLeaf (DInt 1 [(1%Z, 1/3); (4%Z, 2/3)])]);
        (Fin (ln (3/4)), PProd [PLeaf (DUnif 0 (iclosed_open 0 4)); PLeaf (DInt 1 [(4%Z, 1)])])].
Definition demo_graph : graph dist :=
  mkGraph [(0, USum); (1, UProd); (2, UProd); (3, ULeaf (DGauss 0 1%R 2%R));
           (4, ULeaf (DInt 1 [(1%Z, (1/3)%R); (4%Z, (2/3)%R)]));
           (5, ULeaf (DUnif 0 (iclosed_open 0%R 4%R))); (6, ULeaf (DInt 1 [(4%Z, 1%R)]))]%nat
    [mkEdge 0 1 (Some (Fin (ln (1/4)))); mkEdge 0 2 (Some (Fin (ln (3/4))));
     mkEdge 1 3 None; mkEdge 1 4 None; mkEdge 2 5 None; mkEdge 2 6 None]%nat.

Example demo_ok : layered_circuit demo_graph demo_tree /\ normalised demo_tree /\ all_leaves dist_ok demo_tree /\
  smooth dist_vars demo_tree /\ decomposable dist_vars demo_tree /\ all_leaves numeric demo_tree /\
  all_leaves sorted_dict demo_tree.
Proof.
  split; [|split; [|split; [|split; [|split; [|split]]]]].
  - split; [|split].
    + constructor; cbn.
      * repeat constructor; cbn; intuition lia.
      * repeat constructor; cbn; intuition congruence.
      * intros e H. repeat destruct H as [<-|H]; cbn; tauto.
      * intros e H. repeat destruct H as [<-|H]; cbn; tauto.
    + intros e d H. repeat destruct H as [<-|H]; cbn; try discriminate. destruct H.
    + exists 0%nat. split; [reflexivity|]. split.
      * exists (fun u => if u =? 0 then 0 else if u <=? 2 then 1 else 2)%nat. split; [reflexivity|].
        intros e H _. repeat destruct H as [<-|H]; cbn; try reflexivity. destruct H.
      * unfold demo_tree.
        repeat match goal with
        | |- unfolds _ _ (PLeaf _) => apply unf_leaf; reflexivity
        | |- unfolds _ _ (PSum _) => apply unf_sum; [reflexivity|discriminate|cbn]
        | |- unfolds _ _ (PProd _) => apply unf_prod; [reflexivity|cbn]
        | |- Forall2 _ _ _ => constructor
        | |- _ /\ _ => split; [reflexivity|cbn]
        end.
  - cbn. repeat split; auto; [repeat constructor|]. cbn. rewrite !exp_ln by lra. lra.
  - cbn. repeat split; auto; try lra; try (repeat constructor; cbn; try lra; intuition discriminate).
    exists 0, 4. repeat split; auto. lra.
  - cbn. repeat split; auto; intuition.
  - cbn. repeat split; auto; intuition; lia.
  - cbn. tauto.
  - cbn. repeat split; auto; repeat constructor; cbn; lia.
Qed.

Example demo_cdf : cdf_consistent demo_graph demo_tree.
Proof.
  destruct demo_ok as [H1 [H2 [H3 [H4 [H5 [H6 H7]]]]]]. apply C05_cdf_partial; auto using normalised_lw_ok.
Qed.

(** The whole domain of the example has probability 1. *)
Example demo_total : answers demo_graph (fun _ => EInt [ireals]) 1.
Proof.
  destruct demo_ok as [H1 [H2 [H3 [H4 [H5 [H6 H7]]]]]].
  apply (C03_total _ _ H1 H2 H3); [|cbn; tauto]. assert (Hi := ireals_ok). cbn. repeat split; try apply Hi; discriminate.
Qed.

Print Assumptions C03_range.
Print Assumptions C03_total.
Print Assumptions C03_monotone.
Print Assumptions C03_additive.
Print Assumptions C04_interval_pointset.
Print Assumptions C04_any_cdf.
Print Assumptions C05_cdf_partial.
Print Assumptions C05_cdf_refuted.
