(** * BayesHybridFacts: the circuit of a circuit node *)
From Coq Require Import List Arith Bool Lia ZArith Reals Lra Permutation.
From Verif Require Import Num Graph GraphFacts Spec SpecFacts Circuit EvalFacts VarFacts Interval Dist DistFacts CondFacts TreeProb Simplify SimplifyFacts TreeLocal
  Conditional CondPass Restrict Copy Rename SupportFacts ModeFacts PropertiesDist PropertiesQuery PropertiesProb PropertiesSupport MarginalFacts
  PropertiesMarginal MoveFacts LeafCond Settled Multinomial MultinomialFacts Layout LayoutFacts Mixture MixtureFacts ConditionalEvent ConditionalEventFacts
  Interaction InteractionFacts Mounting MountTree PropertiesInteraction Bayes BayesFacts PropertiesForward BayesNet BayesCircuit JaxLayerFacts WholeLeaf BayesHybrid.
Import ListNotations.
Local Set Bullet Behavior "Strict Subproofs".
Local Open Scope R_scope.

(** ** Guards *)

(** One circuit of a circuit node: nothing in it can be simplified away and it is not a mixture itself; it is valid, and every
    leaf is a distribution over the domain of its variable. *)
Record circuit_ok (vs : list (nat * evset)) (t : pc dist) : Prop := {
  co_settled : settled t;
  co_root : is_sum t = false;
  co_convex : normalised t;
  co_fin : fin_sums t;
  co_smooth : smooth dist_vars t;
  co_dec : decomposable dist_vars t;
  co_ok : all_leaves dist_ok t;
  co_whole : all_leaves (fun d => forall A, In (dvar d, A) vs -> whole d A) t;
  co_vars : forall v, mentions dist_vars t v <-> In v (map fst vs)
}.

(** ** Trees *)
Lemma settled_nonempty {D} (t : pc D) : settled t -> sums_nonempty t.
Proof.
  induction t as [d|l IH|l IH] using pc_ind'; cbn [settled sums_nonempty]; intros H; [exact I| |].
  - destruct H as (H1 & _ & H2). apply fold_and_Forall in H2. split; [intros ->; cbn in H1; lia|]. rewrite Forall_map in *. rewrite Forall_forall in *. auto.
  - destruct H as (_ & H2). apply fold_and_Forall in H2. rewrite Forall_map. rewrite Forall_forall in *. auto.
Qed.

Lemma mentions_leaf {D} (dvars : D -> list nat) (P : nat -> Prop) t : (forall v, mentions dvars t v -> P v) <-> all_leaves (fun d => forall v, In v (dvars d) -> P v) t.
Proof.
  induction t as [d|l IH|l IH] using pc_ind'; cbn [mentions all_leaves]; [reflexivity| |]; rewrite fold_and_Forall, Forall_forall; rewrite Forall_forall in IH.
  - split.
    + intros H wt Hin. apply IH; [exact Hin|]. intros v Hv. apply H. apply fold_or_Exists, Exists_exists. eauto.
    + intros H v Hv. apply fold_or_Exists, Exists_exists in Hv. destruct Hv as (wt & Hin & Hv). apply (proj2 (IH wt Hin) (H wt Hin) v Hv).
  - split.
    + intros H wt Hin. apply IH; [exact Hin|]. intros v Hv. apply H. apply fold_or_Exists, Exists_exists. eauto.
    + intros H v Hv. apply fold_or_Exists, Exists_exists in Hv. destruct Hv as (wt & Hin & Hv). apply (proj2 (IH wt Hin) (H wt Hin) v Hv).
Qed.

Lemma tmap_decomposable {D E} (F : D -> E) vD vE t : (forall d, vE (F d) = vD d) -> decomposable vD t -> decomposable vE (tmap F t).
Proof.
  intros HF. induction t as [d|l IH|l IH] using pc_ind'; cbn [tmap decomposable]; [auto| |].
  - rewrite map_map. cbn [snd]. rewrite !fold_and_Forall, !Forall_forall. rewrite Forall_forall in IH. auto.
  - intros [A B]. split.
    + assert (G : forall l', pairwise_disjoint (map (fun t' => mentions vD t') l') -> pairwise_disjoint (map (fun t' => mentions vE t') (map (tmap F) l'))).
      { clear -HF. induction l' as [|a l' IH]; cbn [map pairwise_disjoint]; [auto|]. intros [A B]. split; [|auto].
        rewrite fold_and_Forall in *. rewrite Forall_map in *. rewrite Forall_map. eapply Forall_impl; [|exact A]. intros t H v [H1 H2]. apply (H v).
        split; [apply (tmap_mentions F vD vE a v HF); exact H1|apply (tmap_mentions F vD vE t v HF); exact H2]. }
      now apply G.
    + rewrite map_map. rewrite !fold_and_Forall, !Forall_forall in *. auto.
Qed.

(** A tree all of whose leaves survive is kept as it is. *)
Lemma kept {D} (kp : D -> bool) (t : pc D) : settled t -> all_leaves (fun d => kp d = true) t -> survives kp t = true /\ prune (survives kp) t = t.
Proof.
  induction t as [d|l IH|l IH] using pc_ind'; cbn [settled all_leaves survives prune]; intros Hs Hl.
  - auto.
  - destruct Hs as (H1 & _ & H2). rewrite fold_and_Forall in *. rewrite Forall_forall in *. split.
    + destruct l as [|wt l]; [cbn in H1; lia|]. cbn [existsb]. destruct (IH wt (or_introl eq_refl) (H2 _ (or_introl eq_refl)) (Hl _ (or_introl eq_refl))) as [-> _]. reflexivity.
    + f_equal. rewrite (flat_map_all (fun wt => survives kp (snd wt)) (fun wt => (fst wt, prune (survives kp) (snd wt)))).
      * rewrite <- (map_id l) at 2. apply map_ext_in. intros [w t] Hin. cbn [fst snd]. f_equal. exact (proj2 (IH _ Hin (H2 _ Hin) (Hl _ Hin))).
      * intros wt Hin. apply (IH wt Hin); auto.
  - destruct Hs as (H1 & H2). rewrite fold_and_Forall in *. rewrite Forall_forall in *. split.
    + destruct l as [|wt l]; [cbn in H1; lia|]. cbn [existsb]. destruct (IH wt (or_introl eq_refl) (H2 _ (or_introl eq_refl)) (Hl _ (or_introl eq_refl))) as [-> _]. reflexivity.
    + f_equal. rewrite (flat_map_all (survives kp) (prune (survives kp))).
      * rewrite <- (map_id l) at 2. apply map_ext_in. intros t Hin. exact (proj2 (IH _ Hin (H2 _ Hin) (Hl _ Hin))).
      * intros t Hin. apply (IH t Hin); auto.
Qed.

(** ** The joint distribution with the parent *)
Definition joint_tree (pv : nat) (pm : dict) (cpd : list (Z * pc dist)) : pc dist :=
  PSum (map (fun kt => (nlog (Fin (dget pm (fst kt))), PProd [PLeaf (point pv (fst kt)); snd kt])) cpd).

Lemma joint_spec np pv pm cpd : msg_full np pm -> incl (map fst cpd) (zrange np) -> joint_with_parent (zrange np) pv pm cpd = Some (joint_tree pv pm cpd).
Proof.
  intros (_ & _ & _ & _ & Pm) Hi. unfold joint_with_parent.
  rewrite (mapM_some _ (fun kt => [(nlog (Fin (dget pm (fst kt))), PProd [PLeaf (point pv (fst kt)); snd kt])])).
  - unfold joint_tree. do 2 f_equal. clear Hi. induction cpd as [|a l IH]; [reflexivity|]. cbn [map concat app]. now rewrite IH.
  - intros [k t] Hin. unfold joint_part. cbn [fst snd]. assert (Hk : In k (zrange np)) by (apply Hi; exact (in_map fst _ _ Hin)).
    assert (existsb (Z.eqb k) (zrange np) = true) as -> by now apply existsb_Zeqb. cbn [negb]. now rewrite singleton_conditional by auto.
Qed.

Lemma point_ok v k : dist_ok (point v k).
Proof. split; [split|]; [repeat constructor; cbn; tauto|repeat constructor; cbn; lra|cbn; lra]. Qed.

Section Node.
Variables (np : nat) (pv : nat) (pm : dict) (vs : list (nat * evset)) (cpd : list (Z * pc dist)) (e : sevent).
Hypothesis HM : msg_full np pm.
Hypothesis Hnp : (2 <= np)%nat.
Hypothesis HN : NoDup (map fst cpd).
Hypothesis HK : forall s, In s (map fst cpd) <-> In s (zrange np).
Hypothesis HC : Forall (fun kt => circuit_ok vs (snd kt)) cpd.
Hypothesis He : forall v A, In (v, A) vs -> e v = A.
Hypothesis Hp : e pv = ESym (zrange np).
Hypothesis Hpv : ~ In pv (map fst vs).

Let F (d : dist) : dist := sureleaf (e (dvar d)) d.
Let kp (d : dist) : bool := existsb (Nat.eqb (dvar d)) (map fst vs).

Lemma F_var d : dvar (F d) = dvar d.
Proof. apply sureleaf_var. Qed.

Lemma cpd_length : length cpd = np.
Proof.
  rewrite <- (map_length fst), <- (zrange_length np). apply Permutation_length, NoDup_Permutation; [exact HN|apply zrange_NoDup|exact HK].
Qed.

Lemma node_leaves kt : In kt cpd -> all_leaves (fun d => dist_ok d /\ whole d (e (dvar d)) /\ kp d = true) (snd kt).
Proof.
  intros Hin. rewrite Forall_forall in HC. destruct (HC kt Hin) as [A1 A2 A3 A4 A5 A6 A7 A8 A9].
  assert (M := proj1 (mentions_leaf dist_vars (fun v => In v (map fst vs)) (snd kt)) (fun v Hv => proj1 (A9 v) Hv)).
  eapply all_leaves_impl; [|apply (all_leaves_and _ _ _ A7 (all_leaves_and _ _ _ A8 M))]. cbn beta. intros d (B1 & B2 & B3).
  assert (Hd : In (dvar d) (map fst vs)) by (apply B3; now left). split; [exact B1|]. split.
  - apply in_map_iff in Hd. destruct Hd as ([v A] & E & HA). cbn [fst] in E. rewrite <- E. rewrite (He v A HA). apply B2. now rewrite <- E.
  - unfold kp. apply existsb_exists. exists (dvar d). split; [exact Hd|apply Nat.eqb_refl].
Qed.

Lemma weights_finite kt : In kt cpd -> 0 < dget pm (fst kt).
Proof. intros Hin. destruct HM as (_ & _ & _ & _ & Pm). apply Pm, HK. now apply in_map. Qed.

Lemma weights_sum : Rsum (map (fun kt : Z * pc dist => dget pm (fst kt)) cpd) = 1.
Proof.
  rewrite <- (map_map fst (dget pm)). destruct HM as (_ & Hm & Km & Sm & _). rewrite <- Sm.
  rewrite (Rsum_perm (map (dget pm) (map fst cpd)) (map (dget pm) (zrange np))) by (apply Permutation_map, NoDup_Permutation; [exact HN|apply zrange_NoDup|exact HK]).
  rewrite <- Km. symmetry. apply vals_sum; [apply Hm|apply Hm|apply incl_refl].
Qed.

Lemma wexp_nlog y : 0 < y -> wexp (nlog (Fin y)) = y.
Proof. intros H. rewrite nlog_Fin_pos by exact H. unfold wexp. now apply exp_ln. Qed.

Lemma component_convex (f : Z * pc dist -> pc dist) : (forall kt, In kt cpd -> normalised (f kt)) -> normalised (PSum (map (fun kt => (nlog (Fin (dget pm (fst kt))), f kt)) cpd)).
Proof.
  intros Hf. unfold normalised. cbn [all_sums]. rewrite !map_map. cbn [fst snd]. split.
  - split.
    + rewrite Forall_map. apply Forall_forall. intros kt Hin. rewrite nlog_Fin_pos by now apply weights_finite. exact I.
    + rewrite map_map. rewrite (Rsum_ext _ (fun kt => dget pm (fst kt))); [apply weights_sum|]. intros kt Hin. now apply wexp_nlog, weights_finite.
  - apply fold_and_Forall. apply Forall_forall. exact Hf.
Qed.

Lemma component_fin (f : Z * pc dist -> pc dist) : (forall kt, In kt cpd -> fin_sums (f kt)) -> fin_sums (PSum (map (fun kt => (nlog (Fin (dget pm (fst kt))), f kt)) cpd)).
Proof.
  intros Hf. unfold fin_sums. cbn [all_sums]. rewrite !map_map. cbn [fst snd]. split.
  - rewrite Forall_map. apply Forall_forall. intros kt Hin. rewrite nlog_Fin_pos by now apply weights_finite. exact I.
  - apply fold_and_Forall. apply Forall_forall. exact Hf.
Qed.

Lemma joint_settled : settled (joint_tree pv pm cpd).
Proof.
  unfold joint_tree. cbn [settled]. rewrite map_length, cpd_length. split; [exact Hnp|]. split.
  - intros wt Hwt. apply in_map_iff in Hwt. destruct Hwt as (kt & <- & _). reflexivity.
  - rewrite map_map. apply fold_and_Forall, Forall_forall. intros kt Hin. cbn [snd settled length map fold_right]. rewrite Forall_forall in HC. repeat split; auto. apply (co_settled vs), HC, Hin.
Qed.

Lemma joint_circuit : tree_circuit (layout (joint_tree pv pm cpd)) 0%nat (joint_tree pv pm cpd).
Proof.
  constructor; [apply layout_tree|apply layout_leaves_terminal|apply layout_unfolds, settled_nonempty, joint_settled|].
  apply component_fin. intros kt Hin. unfold fin_sums. cbn [all_sums map fold_right]. rewrite Forall_forall in HC. split; [exact I|]. split; [apply (co_fin vs), HC, Hin|exact I].
Qed.

Lemma joint_sure : all_leaves (Settled.sure (fun d => leaf_cond d (e (dvar d))) F) (joint_tree pv pm cpd).
Proof.
  unfold joint_tree. cbn [all_leaves]. rewrite map_map. apply fold_and_Forall, Forall_forall. intros kt Hin. cbn [snd all_leaves map fold_right]. split; [|split; [|exact I]].
  - unfold Settled.sure, F. apply whole_spec; [apply point_ok|]. cbn [dvar point]. rewrite Hp. split; [apply zrange_NoDup|]. intros k [<-|[]]. cbn [fst]. apply HK. now apply in_map.
  - eapply all_leaves_impl; [|exact (node_leaves kt Hin)]. cbn beta. intros d (A & B & _). unfold Settled.sure, F. now apply whole_spec.
Qed.

Definition message_tree : pc dist := PSum (map (fun kt => (nlog (Fin (dget pm (fst kt))), tmap F (snd kt))) cpd).

Lemma tmap_kept kt : In kt cpd -> settled (tmap F (snd kt)) /\ all_leaves (fun d => kp d = true) (tmap F (snd kt)).
Proof.
  intros Hin. split.
  - apply tmap_settled. rewrite Forall_forall in HC. apply (co_settled vs), HC, Hin.
  - apply tmap_all_leaves. eapply all_leaves_impl; [|exact (node_leaves kt Hin)]. cbn beta. intros d (_ & _ & H). unfold kp. now rewrite F_var.
Qed.

Lemma point_dropped k : kp (F (point pv k)) = false.
Proof.
  unfold kp. rewrite F_var. cbn [dvar point]. apply not_true_is_false. intros H. apply existsb_exists in H. destruct H as (v & Hv & Ev). apply Nat.eqb_eq in Ev. subst v. exact (Hpv Hv).
Qed.

Lemma joint_pruned : survives kp (tmap F (joint_tree pv pm cpd)) = true /\
  prune (survives kp) (tmap F (joint_tree pv pm cpd)) = PSum (map (fun wt => (fst wt, PProd [snd wt])) (map (fun kt => (nlog (Fin (dget pm (fst kt))), tmap F (snd kt))) cpd)).
Proof.
  unfold joint_tree. cbn [tmap survives prune]. rewrite !map_map. cbn [fst snd].
  assert (S1 : forall kt, In kt cpd -> survives kp (tmap F (PProd [PLeaf (point pv (fst kt)); snd kt])) = true).
  { intros kt Hin. cbn [tmap survives map existsb]. destruct (tmap_kept kt Hin) as [A B]. destruct (kept kp _ A B) as [-> _]. now rewrite orb_true_r. }
  split.
  - assert (X : exists kt, In kt cpd).
    { assert (L := cpd_length). revert L. generalize cpd as l. intros [|kt l] L; [cbn in L; lia|exists kt; now left]. }
    destruct X as (kt & Hin). apply existsb_exists. exists (nlog (Fin (dget pm (fst kt))), tmap F (PProd [PLeaf (point pv (fst kt)); snd kt])).
    split; [exact (in_map (fun kt => (nlog (Fin (dget pm (fst kt))), tmap F (PProd [PLeaf (point pv (fst kt)); snd kt]))) _ _ Hin)|]. cbn [snd]. now apply S1.
  - f_equal. rewrite (flat_map_all (fun wt => survives kp (snd wt)) (fun wt => (fst wt, prune (survives kp) (snd wt)))).
    + rewrite map_map. apply map_ext_in. intros kt Hin. cbn [fst snd]. f_equal. cbn [tmap map prune flat_map survives]. rewrite point_dropped. cbn [app].
      destruct (tmap_kept kt Hin) as [A B]. destruct (kept kp _ A B) as [-> ->]. reflexivity.
    + intros wt Hwt. apply in_map_iff in Hwt. destruct Hwt as (kt & <- & Hin). cbn [snd]. now apply S1.
Qed.

(** The forward pass of the node: its message is the mixture of its circuits, in the order of the dictionary. *)
Lemma circuit_forward_spec : exists g r, circuit_forward e (zrange np) pv (Some pm) vs cpd = Some (g, r, Fin 1) /\ tree_circuit g r message_tree.
Proof.
  unfold circuit_forward. rewrite (joint_spec np) by (auto; intros s Hs; now apply HK).
  assert (Nj : normalised (joint_tree pv pm cpd)).
  { apply component_convex. intros kt Hin. unfold normalised. cbn [all_sums map fold_right]. rewrite Forall_forall in HC. split; [exact I|]. split; [apply (co_convex vs), HC, Hin|exact I]. }
  destruct (conditional_sure _ F _ 0%nat _ empty_store joint_circuit joint_settled Nj joint_sure) as (g1 & E1 & T1). unfold conditional_on. rewrite E1.
  destruct joint_pruned as [P1 P2].
  destruct (marginal_pruned kp (fun _ => false) marginal1 (map fst vs) (fun d => eq_refl) g1 0%nat _ T1 P1) as (g2 & T2 & E2). rewrite P2 in T2.
  destruct (simplify_collapse (fun _ => false) g2 0%nat _ T2) as (g3 & E3 & T3).
  - rewrite map_length, cpd_length. exact Hnp.
  - intros wt Hwt. apply in_map_iff in Hwt. destruct Hwt as (kt & <- & Hin). cbn [snd]. split; [now apply tmap_kept|]. split.
    + rewrite Forall_forall in HC. generalize (co_root vs _ (HC kt Hin)). destruct (snd kt); cbn; congruence.
    + apply tmap_all_leaves. eapply all_leaves_impl; [|exact (node_leaves kt Hin)]. reflexivity.
  - rewrite E2, E3. rewrite (tree_root g3 0%nat) by apply T3. exists g3, 0%nat. split; [|exact T3]. cbn [nexp]. now rewrite exp_0.
Qed.

Definition none : Z * pc dist := (0%Z, PProd []).

Lemma tmap_value kt x : In kt cpd -> lik (tmap F (snd kt)) x = Fin (likR (snd kt) x).
Proof.
  intros Hin. assert (HC' := HC). rewrite Forall_forall in HC'. destruct (HC' kt Hin) as [A1 A2 A3 A4 A5 A6 A7 A8 A9]. assert (Hl := node_leaves kt Hin).
  rewrite <- lik_R.
  - unfold lik. rewrite tmap_semN. apply semN_ext. eapply all_leaves_impl; [|exact Hl]. cbn beta. intros d (B1 & B2 & _). rewrite F_var. unfold F. now apply whole_spec.
  - exact A7.
  - eapply all_leaves_impl; [|exact Hl]. cbn beta. intros d (_ & B & _). destruct d; cbn [cap_ok]; auto. cbn [whole dvar] in B. destruct (e v); [|contradiction]. destruct B as [_ ->]. exists 1. split; [reflexivity|lra].
  - now apply fin_ok.
Qed.

Lemma circuit_node_inv g r nx : tree_circuit g r message_tree ->
  exists ts, @node_inv_at (nat -> R) (fun x => x) (fun i => dget pm (fst (nth i cpd none))) np (shift nx g) (r + nx)%nat nx (S (list_max (node_ids g)) + nx) ts (map fst vs)
    (fun x i => likR (snd (nth i cpd none)) x).
Proof.
  intros T. exists (map (fun kt => (nlog (Fin (dget pm (fst kt))), tmap F (snd kt))) cpd). fold message_tree.
  assert (Sh := shift_same nx g). assert (HC' := HC). rewrite Forall_forall in HC'.
  assert (Mn : forall kt v, In kt cpd -> mentions dist_vars (tmap F (snd kt)) v <-> In v (map fst vs)).
  { intros kt v Hin. rewrite (tmap_mentions F dist_vars dist_vars (snd kt) v) by (intros d; unfold dist_vars; now rewrite F_var). apply (co_vars vs), HC', Hin. }
  assert (X : exists kt, In kt cpd).
  { assert (L := cpd_length). revert L. generalize cpd as l. intros [|kt l] L; [cbn in L; lia|exists kt; now left]. }
  constructor.
  - split; [apply shift_wf, T|]. split.
    + intros e' d He'. unfold shift in He'. cbn [g_edges] in He'. apply in_map_iff in He'. destruct He' as (e0 & <- & H0). cbn [e_src]. rewrite (ren_node_kind _ _ _ Sh). apply (tc_leaf _ _ _ T e0 d H0).
    + exists (r + nx)%nat. split; [rewrite (ren_root _ _ _ Sh), (tree_root g r) by apply T; reflexivity|]. split.
      * destruct (tree_graded g r (tc_tree _ _ _ T)) as (dp & D0 & D1). exists (fun u => dp (u - nx)%nat). split.
        -- unfold id in *. replace (r + nx - nx)%nat with r by lia. exact D0.
        -- intros e' He'. unfold shift in He'. cbn [g_edges] in He'. apply in_map_iff in He'. destruct He' as (e0 & <- & H0). cbn [e_src e_dst].
           replace (e_src e0 + nx - nx)%nat with (e_src e0) by (unfold id in *; lia). replace (e_dst e0 + nx - nx)%nat with (e_dst e0) by (unfold id in *; lia). intros _. apply D1; [exact H0|]. assert (Tt := tc_tree _ _ _ T). apply root_reaches_all; [apply Tt|apply Tt|now apply tree_root|]. apply (wf_src g); [apply Tt|exact H0].
      * apply (ren_unfolds _ _ _ Sh). apply T.
  - rewrite (ren_root _ _ _ Sh), (tree_root g r) by apply T. reflexivity.
  - intros u Hu. apply shift_ids in Hu. destruct Hu as (y & Hy & ->). assert (L := proj1 (list_max_le (node_ids g) (list_max (node_ids g))) (le_n _)). rewrite Forall_forall in L. specialize (L y Hy). unfold id in *. lia.
  - lia.
  - rewrite map_length. apply cpd_length.
  - cbn [smooth]. rewrite map_map. cbn [snd]. split.
    + intros v Hv. cbn [mentions] in Hv. rewrite map_map in Hv. cbn [snd] in Hv. apply fold_or_Exists, Exists_exists in Hv. destruct Hv as (kt & Hin & Hv).
      rewrite map_map. cbn [snd]. apply fold_and_Forall, Forall_forall. intros kt' Hin'. apply (Mn kt' v Hin'). now apply (Mn kt v Hin).
    + apply fold_and_Forall, Forall_forall. intros kt Hin. apply (tmap_smooth F dist_vars dist_vars); [intros d; unfold dist_vars; now rewrite F_var|]. apply (co_smooth vs), HC', Hin.
  - cbn [decomposable]. rewrite map_map. cbn [snd]. apply fold_and_Forall, Forall_forall. intros kt Hin. apply (tmap_decomposable F dist_vars); [intros d; unfold dist_vars; now rewrite F_var|]. apply (co_dec vs), HC', Hin.
  - cbn [all_leaves]. rewrite map_map. cbn [snd]. apply fold_and_Forall, Forall_forall. intros kt Hin. apply tmap_all_leaves. eapply all_leaves_impl; [|exact (node_leaves kt Hin)]. cbn beta. intros d (B1 & B2 & _). now apply whole_spec.
  - apply fin_ok. apply T.
  - intros v. cbn [mentions]. rewrite map_map. cbn [snd]. rewrite fold_or_Exists, Exists_exists. split.
    + intros (kt & Hin & Hv). now apply (Mn kt v Hin).
    + intros Hv. destruct X as (kt & Hin). exists kt. split; [exact Hin|]. now apply (Mn kt v Hin).
  - intros i w t Hi. rewrite nth_error_map in Hi. destruct (nth_error cpd i) as [kt|] eqn:Ek; [|discriminate]. cbn [option_map] in Hi.
    rewrite (nth_error_nth cpd i none Ek). congruence.
  - intros x i t Hi. rewrite map_map in Hi. cbn [snd] in Hi. rewrite nth_error_map in Hi. destruct (nth_error cpd i) as [kt|] eqn:Ek; [|discriminate]. cbn [option_map] in Hi.
    rewrite (nth_error_nth cpd i none Ek). assert (t = tmap F (snd kt)) as -> by congruence. apply tmap_value. eapply nth_error_In; eauto.
Qed.
End Node.

(** ** The interaction term of a circuit node *)
Definition idtable (np : nat) : list (Z * dict) := map (fun k => (k, [(k, 1)])) (zrange np).

Lemma idtable_ok np v : (0 < np)%nat -> cpt_ok (zrange np) (CPT v (zrange np) (idtable np) []).
Proof.
  intros H. cbn [cpt_ok]. assert (M : map fst (idtable np) = zrange np) by (unfold idtable; rewrite map_map; cbn [fst]; apply map_id).
  split; [apply zrange_NoDup|]. split; [intros E; apply (f_equal (@length Z)) in E; rewrite zrange_length in E; cbn in E; lia|]. rewrite M. split; [apply zrange_NoDup|]. split; [tauto|]. split; [|exact I].
  apply Forall_forall. intros kr Hin. unfold idtable in Hin. apply in_map_iff in Hin. destruct Hin as (k & <- & Hk). cbn [snd]. split; [|split].
  - split; [repeat constructor; intros []|repeat constructor; cbn; lra].
  - intros z [<-|[]]. exact Hk.
  - unfold vals. cbn. lra.
Qed.

Lemma idtable_tab np i j : (i < np)%nat -> tab (idtable np) (Z.of_nat i) (Z.of_nat j) = ind (i =? j)%nat.
Proof.
  intros Hi. rewrite (tab_row (idtable np) (Z.of_nat i) [(Z.of_nat i, 1)]).
  - rewrite dget_cons. destruct (Z.eqb_spec (Z.of_nat i) (Z.of_nat j)), (Nat.eqb_spec i j); try lia; reflexivity.
  - apply row_of_In; [unfold idtable; rewrite map_map; cbn [fst]; rewrite map_id; apply zrange_NoDup|]. apply (in_map (fun k => (k, [(k, 1)]))). apply zrange_In. eauto.
Qed.

Lemma flat_map_single {A B} (f : A -> B) l : flat_map (fun a => [f a]) l = map f l.
Proof. induction l as [|a l IH]; [reflexivity|]. cbn. now rewrite IH. Qed.

Lemma diagonal_terms np pm : msg_full np pm -> diagonal_term pm = sop (terms pm (idtable np)).
Proof.
  intros (Hnp & Hm & Km & Sm & Pm). unfold diagonal_term, sop, terms, idtable. f_equal. rewrite <- Km. unfold keys. rewrite map_map.
  rewrite flat_map_concat_map, map_map. cbn [fst snd map]. rewrite <- flat_map_concat_map, flat_map_single, map_map. apply map_ext_in. intros [k w] Hin. cbn [fst snd map term].
  assert (Ew : dget pm k = w) by (apply dget_In; [apply Hm|exact Hin]). assert (0 < w) by (rewrite <- Ew; apply Pm; rewrite <- Km; exact (in_map fst _ _ Hin)).
  unfold term. cbn [fst snd map]. rewrite Ew, nlog_one, nlog_Fin_pos by assumption. cbn [nadd]. rewrite Rplus_0_r. reflexivity.
Qed.

Lemma mount_circuit_spec {Y : Type} {emb : Y -> nat -> R} np pm q0 q g h r o lo mid hi ts us V W F G :
  msg_full np pm -> @node_inv_at Y emb q0 np g r lo mid ts V F -> @node_inv_at Y emb q np h o mid hi us W G -> (forall w, In w V -> ~ In w W) ->
  exists g' ts', mount_circuit pm r g h o hi = Some (g', hi + 2 * np)%nat /\
    @node_inv_at Y emb (fun i => dget pm (Z.of_nat i)) np g' r lo (hi + 2 * np) ts' (V ++ W) (fun x i => F x i * G x i).
Proof.
  intros HM Ig Ih Hd. assert (Hnp : (0 < np)%nat) by apply HM.
  destruct (mount_child_spec np pm np q0 q 0%nat (idtable np) [] g h r o lo mid hi ts us V W F G HM (idtable_ok np 0%nat Hnp) Ig Ih Hd) as (g' & ts' & E & Inv).
  exists g', ts'. split.
  - unfold mount_circuit. assert (Lh := ni_layered _ _ _ _ _ _ _ _ _ Ih). assert (Lg := ni_layered _ _ _ _ _ _ _ _ _ Ig). assert (Rh := ni_root _ _ _ _ _ _ _ _ _ Ih). assert (Rg := ni_root _ _ _ _ _ _ _ _ _ Ig).
    assert (Ko : node_kind h o = Some USum) by (destruct Lh as (_ & _ & o' & Ro & _ & Hu); assert (o' = o) as -> by congruence; inversion Hu; auto). rewrite Ko.
    rewrite (subcircuits_length g r ts Lg Rg), (subcircuits_length h o us Lh Rh), (ni_len _ _ _ _ _ _ _ _ _ Ig), (ni_len _ _ _ _ _ _ _ _ _ Ih), Nat.eqb_refl.
    unfold mount_child in E. rewrite (interaction_terms np pm 0%nat np (idtable np) [] HM (idtable_ok np 0%nat Hnp)) in E. rewrite (subcircuits_length h o us Lh Rh), (ni_len _ _ _ _ _ _ _ _ _ Ih) in E.
    cbv zeta. rewrite (diagonal_terms np pm HM). exact E.
  - eapply node_inv_ext; [exact Inv|auto|tauto|]. intros x i Hi. cbn beta. f_equal.
    rewrite (Rsum_ext _ (fun j => ind (i =? j)%nat * G x j)) by (intros j _; now rewrite idtable_tab).
    rewrite (Rsum_one _ (seq 0 np) i); [rewrite Nat.eqb_refl; unfold ind; ring|apply seq_NoDup|apply in_seq; lia|].
    intros j _ Nj. destruct (Nat.eqb_spec i j); [congruence|]. unfold ind. ring.
Qed.
