(** * Properties C08, C09 and C10 for events of several simple sets *)
From Coq Require Import List Arith Bool Lia Reals Lra ZArith Permutation.
From Verif Require Import Num Graph GraphFacts Spec SpecFacts Circuit EvalFacts VarFacts PropertiesQuery Interval GaussInt Dist DistFacts CondFacts
  TreeProb PropertiesProb PropertiesDist Simplify SimplifyFacts TreeLocal NormalizeFacts PropertiesSimplify Restrict MarginalFacts PropertiesMarginal
  Conditional ConditionalFacts CondPass CondMain LeafCond CondBayes PropertiesConditional Heap Interaction MountTree Support SupportFacts ConditionalEvent ConditionalEventFacts.
Import ListNotations.
Local Set Bullet Behavior "Strict Subproofs".
Local Open Scope R_scope.

Lemma results_simple {D} (lc : D -> option (lres D)) g st : conditional_simple lc g st = match conditional_results lc g st with Some (q, lp, _) => Some (q, lp) | None => None end.
Proof.
  unfold conditional_simple, conditional_results. destruct (bottom_up g) as [order|]; [|reflexivity]. destruct (foldM _ order _) as [[[g1 st1] n]|]; [|reflexivity].
  destruct (conditional_finish g1 st1) as [[q lp]|]; reflexivity.
Qed.

(** If no leaf becomes a sum unit, every unit of the conditional circuit has a result. *)
Lemma results_defined {D} (lcond : D -> option (lres D)) val dvars Q g r t st q lp st1 : tree_circuit g r t -> all_leaves (leaf_good lcond val dvars Q) t -> smooth dvars t -> decomposable dvars t ->
  all_sub (fun t => semN val t <> Fin 0) t -> all_leaves (fun d => exists d' lp, lcond d = Some (LOne d' lp)) t ->
  conditional_results lcond g st = Some (Some q, lp, st1) -> forall x, In x (node_ids q) -> exists v, st1 x = Some v.
Proof.
  intros H Hgood Hsm Hdec Hpos Hone E x Hx. pose proof H as [Htree Hleaf Hunf Hfin]. pose proof Htree as [Hwf [Hac [Hr _]]].
  destruct (cond_pass lcond val dvars Q g r t st H Hgood Hsm Hdec) as [order [Hbu [Hndo [Ho [HF0 [g1 [st1' [nx [r1 [F [M [Hpass HI]]]]]]]]]]]].
  destruct (pass_struct lcond order g st (S (list_max (node_ids g))) g1 st1' nx Hndo) as [E1 [E2 E3]]; auto.
  { intros u d l lp' _ Hk. destruct (tc_kinds _ _ _ _ H Hone u d Hk) as [d' [lp'' E']]. congruence. }
  unfold conditional_results, conditional_finish in E. rewrite Hbu, Hpass in E. destruct HI. rename i_core into Hc1.
  pose proof (tk_tree _ _ Hc1) as Ht1. pose proof Ht1 as [Hwf1 [Hac1 [Hr1 _]]].
  assert (Er : r1 = r) by (destruct i_root as [[E'|[E' _]] _]; auto; exfalso; apply E'; now rewrite <- E2). subst r1.
  rewrite (tree_root _ _ Ht1) in E. destruct (bottom_up_ids g1 r Hwf1 Hac1 (tree_root _ _ Ht1)) as [order1 [Hbu1 [Hndo1 Ho1]]]. rewrite Hbu1 in E.
  assert (Hres : forall x, In x (node_ids g1) -> exists v, st1' x = Some v /\ nexp v <> Fin 0).
  { intros y Hy. destruct (node_kind_complete g1 y Hy) as [k Hk]. assert (Hx0 : In y (node_ids g)) by now rewrite <- E2.
    assert (Hh : has_result st1' F y).
    { pose proof (i_done y k Hk (fun z => z)) as Hd. destruct k; auto. destruct Hd as [[[_ Hd]|Hd] _]; auto. exfalso. auto. }
    destruct Hh as [v [V1 V2]]. exists v. split; auto. rewrite V2, i_F by auto. unfold FN.
    destruct (tc_units _ _ _ _ H (hered_all_sub _) Hpos y Hx0) as [tx [T1 T2]]. rewrite (the_tree_unfolds _ _ _ T1). now apply all_sub_here in T2. }
  assert (Hnil : filter (result_is_ninf st1') order1 = []).
  { apply filter_nil. intros y Hy. apply Ho1 in Hy. destruct (Hres y Hy) as [v [V1 V2]]. unfold result_is_ninf. rewrite V1.
    destruct v; simpl in *; auto. tauto. }
  rewrite Hnil in E. cbn [foldM] in E.
  replace (has_node g1 r) with true in E by (symmetry; apply existsb_exists; exists r; split; auto; apply Nat.eqb_refl). cbn [negb] in E.
  rewrite (remove_unreachable_id g1 r Hwf1 Hac1 (tree_root _ _ Ht1)) in E.
  destruct (tcore_circuit g1 r Hc1) as [t1 H1].
  destruct (simplify_struct (fun _ => false) g1 r t1 H1) as [g4 [r4 [t4 [S1 [S2 [S3 [S4 S5]]]]]]]; [apply all_leaves_True; auto|].
  rewrite S1 in E. destruct (normalize_tree g4 r4 (circuit_tcore _ _ _ S2)) as [g5 [N1 [N2 [N3 _]]]]. rewrite N1 in E.
  destruct (Hres r Hr1) as [lp' [Hlp _]]. rewrite Hlp in E. injection E as <- _ <-.
  destruct (node_kind_complete _ x Hx) as [k Hk]. rewrite N3 in Hk. apply node_kind_ids in Hk. apply S3 in Hk. destruct (Hres x Hk) as [v [Hv _]]. eauto.
Qed.

(** The returned log probability is the result of the root unit before the circuit is cleaned up. *)
Lemma results_root {D} (lcond : D -> option (lres D)) val dvars Q g r t st q lp st1 : tree_circuit g r t -> all_leaves (leaf_good lcond val dvars Q) t -> smooth dvars t -> decomposable dvars t ->
  all_leaves (fun d => exists d' lp, lcond d = Some (LOne d' lp)) t ->
  conditional_results lcond g st = Some (Some q, lp, st1) -> st1 r = Some lp.
Proof.
  intros H Hgood Hsm Hdec Hone E. pose proof H as [Htree Hleaf Hunf Hfin]. pose proof Htree as [Hwf [Hac [Hr _]]].
  destruct (cond_pass lcond val dvars Q g r t st H Hgood Hsm Hdec) as [order [Hbu [Hndo [Ho [HF0 [g1 [st1' [nx [r1 [F [M [Hpass HI]]]]]]]]]]]].
  destruct (pass_struct lcond order g st (S (list_max (node_ids g))) g1 st1' nx Hndo) as [E1 [E2 E3]]; auto.
  { intros u d l lp' _ Hk. destruct (tc_kinds _ _ _ _ H Hone u d Hk) as [d' [lp'' E']]. congruence. }
  unfold conditional_results, conditional_finish in E. rewrite Hbu, Hpass in E. destruct HI. pose proof (tk_tree _ _ i_core) as (_ & _ & Hr1 & _).
  assert (Er : r1 = r) by (destruct i_root as [[E'|[E' _]] _]; auto; exfalso; apply E'; now rewrite <- E2). subst r1.
  rewrite (tree_root _ _ (tk_tree _ _ i_core)) in E.
  destruct (bottom_up g1) as [order1|]; [|discriminate]. destruct (foldM remove_node _ g1) as [g2|]; [|discriminate].
  destruct (negb (has_node g2 r)); [discriminate|]. destruct (remove_unreachable_nodes g2 r) as [g3|]; [|discriminate]. destruct (simplify _ g3) as [g4|]; [|discriminate].
  destruct (normalize g4) as [g5|]; [|discriminate]. destruct (st1' r) as [v|] eqn:Ev; [|discriminate]. injection E as _ <- <-. exact Ev.
Qed.

Lemma tree_det {D} (q : graph D) r t r' t' : tree_circuit q r t -> tree_circuit q r' t' -> r' = r /\ t' = t.
Proof.
  intros H H'. assert (E : r' = r) by (pose proof (tree_root _ _ (tc_tree _ _ _ H)); pose proof (tree_root _ _ (tc_tree _ _ _ H')); congruence).
  subst r'. split; [reflexivity|]. eapply unfolds_det; [apply H'|apply H].
Qed.

(** The guards of C09 for a simple set. *)
Record regular (t : pc dist) (e : sevent) : Prop := {
  rg_ok : event_ok t e;
  rg_points : all_leaves (fun d => no_points d (e (dvar d))) t;
  rg_piece : all_leaves (fun d => one_piece d (e (dvar d))) t;
  rg_even : even (fun d => probR d (e (dvar d))) t
}.

Lemma regular_one e t : all_leaves dist_ok t -> regular t e -> all_sub (fun t => prob_of e t <> 0) t ->
  all_leaves (fun d => exists d' lp, leaf_cond d (e (dvar d)) = Some (LOne d' lp)) t.
Proof.
  intros O [He Hn H1 _] Hs.
  assert (Hl : all_leaves (fun d => probR d (e (dvar d)) <> 0) t).
  { clear - Hs. induction t as [d|l IH|l IH] using pc_ind'; [apply Hs| |]; destruct Hs as [_ Hs]; apply fold_and_Forall in Hs; simpl; apply fold_and_Forall;
      rewrite Forall_forall in *; auto. }
  eapply all_leaves_impl; [|exact (all_leaves_and _ _ _ O (all_leaves_and _ _ _ He (all_leaves_and _ _ _ Hn (all_leaves_and _ _ _ H1 Hl))))]. simpl. intros d [A [B [C [P Z]]]].
  pose proof (pmass_prob _ _ A B C) as EP.
  destruct (leaf_cond_spec d (e (dvar d)) A B (no_points_cap _ _ C)) as [[K1 _]|[[K1 [q [lp [K2 _]]]]|[K1 [js [l [lp [K2 [K3 [K4 [Kc [K5 K6]]]]]]]]]]].
  - exfalso. apply Z. lra.
  - eauto.
  - exfalso. rewrite K2 in *. destruct d; simpl in P, K5, Kc; try lia; tauto.
Qed.

(** What is known about one of the conditional circuits. *)
Record conditioned (t : pc dist) (e : sevent) (i : item (D := dist)) : Prop := {
  cd_lp : exp (i_lp i) = prob_of e t;
  cd_norm : normalised (i_t i);
  cd_smooth : smooth dist_vars (i_t i);
  cd_dec : decomposable dist_vars (i_t i);
  cd_vars : forall v, mentions dist_vars (i_t i) v <-> mentions dist_vars t v;
  cd_ok : all_leaves dist_ok (i_t i);
  cd_event : forall a, event_ok t a -> event_ok (i_t i) a;
  cd_bayes : forall a c, event_ok t a -> meet t c e a -> prob_of a (i_t i) = prob_of c t / prob_of e t
}.

Lemma part_facts e g r t st : valid_tree g r t -> fin_sums t -> regular t e ->
  exists part, conditional_results (fun d => leaf_cond d (e (dvar d))) g st = Some part /\
    ((prob_of e t = 0 /\ parted part None) \/ (0 < prob_of e t /\ exists i, parted part (Some i) /\ conditioned t e i /\ (i_r i = r -> i_v i = Fin (i_lp i)))).
Proof.
  intros V F HR. pose proof HR as [He Hn H1 Hev]. pose proof V as [T L U N Sm Dc O]. assert (H : tree_circuit g r t) by (constructor; auto).
  destruct (C08_conditional_probability_partial e g r t V F He Hn) as [_ HC]. destruct (HC st) as [res [lp [E [Elp Hz]]]].
  pose proof E as E0. unfold conditional_on in E0. rewrite results_simple in E0. destruct (conditional_results _ g st) as [[[res' lp'] st1]|] eqn:Er; [|discriminate]. injection E0 as -> ->.
  exists (res, lp, st1). split; [reflexivity|].
  assert (Hg : forall Q : dist -> Prop, (forall d, dist_ok d -> evset_ok d (e (dvar d)) -> no_points d (e (dvar d)) -> forall q, on_event d (e (dvar d)) q -> Q q) ->
     all_leaves (leaf_good (fun d => leaf_cond d (e (dvar d))) (fun d => Fin (probR d (e (dvar d)))) dist_vars Q) t).
  { intros Q HQ. eapply all_leaves_impl; [|exact (all_leaves_and _ _ _ O (all_leaves_and _ _ _ He Hn))]. simpl. intros d [A [B C]].
    apply no_points_good; auto. intros q Hq. eapply HQ; eauto. }
  assert (Hp0 : 0 <= prob_of e t).
  { unfold prob_of. apply semR_nonneg. eapply all_leaves_impl; [|exact (all_leaves_and _ _ _ O He)]. simpl. intros d [A B]. now apply probR_nonneg. }
  destruct (Req_dec (prob_of e t) 0) as [Z|Z].
  - left. split; [exact Z|]. cbn [parted snd fst]. rewrite Z in Elp. apply nexp_zero in Elp. now subst lp.
  - right. assert (Hp : 0 < prob_of e t) by lra. split; [exact Hp|].
    destruct res as [q|]; [|exfalso; apply Z; now apply Hz].
    assert (Hs : all_sub (fun t => prob_of e t <> 0) t) by (apply even_pos; auto).
    assert (Hs' : all_sub (fun t => semN (fun d => Fin (probR d (e (dvar d)))) t <> Fin 0) t).
    { revert Hs. apply all_sub_impl; auto. intros s Fs P. rewrite semN_semR by now apply fin_ok. intros E'. injection E' as E'. auto. }
    destruct (conditional_tree (fun d => leaf_cond d (e (dvar d))) (fun d => Fin (probR d (e (dvar d)))) dist_vars dist_ok g r t st H) as [[Z' _]|[_ [q' [rq [tq [lp' [E' [_ [Hq [Nq [Oq [Sq [Dq Mq]]]]]]]]]]]]].
    + apply Hg. intros d A B C x [X _]. exact X.
    + exact Sm.
    + exact Dc.
    + exfalso. now apply (all_sub_here _ _ Hs').
    + unfold conditional_on in E. rewrite E in E'. injection E' as <- <-.
      destruct (results_defined _ (fun d => Fin (probR d (e (dvar d)))) dist_vars dist_ok g r t st q lp st1 H ltac:(apply Hg; intros d A B C x [X _]; exact X) Sm Dc Hs' (regular_one e t O HR Hs) Er rq) as [v Hv]; [apply (tc_tree _ _ _ Hq)|].
      assert (Hlp : exists x, lp = Fin x /\ exp x = prob_of e t).
      { destruct lp as [| |x|]; cbn in Elp; try discriminate; [injection Elp as Elp; lra|]. injection Elp as Elp. eauto. }
      destruct Hlp as (x & -> & Ex). exists (mkItem q rq tq x v).
      assert (Hev' : forall a, event_ok t a -> event_ok tq a).
      { intros a Ha. destruct (conditional_tree (fun d => leaf_cond d (e (dvar d))) (fun d => Fin (probR d (e (dvar d)))) dist_vars (fun q => evset_ok q (a (dvar q))) g r t st H) as [[Z' _]|[_ [q' [rq' [tq' [lp' [E' [_ [Hq' [_ [Oq' _]]]]]]]]]]].
        - eapply all_leaves_impl; [|exact (all_leaves_and _ _ _ O (all_leaves_and _ _ _ He (all_leaves_and _ _ _ Hn Ha)))]. simpl. intros d [A [B [C G]]].
          apply no_points_good; auto. intros q0 [Q1 [Q2 [Q3 _]]]. rewrite Q2. auto.
        - exact Sm.
        - exact Dc.
        - exfalso. now apply (all_sub_here _ _ Hs').
        - rewrite E in E'. injection E' as <- _. destruct (tree_det _ _ _ _ _ Hq Hq') as [-> ->]. exact Oq'. }
      split; [exact (conj eq_refl (conj Hv Hq))|].
      pose proof (results_root _ (fun d => Fin (probR d (e (dvar d)))) dist_vars dist_ok g r t st q (Fin x) st1 H ltac:(apply Hg; intros d A B C y [X _]; exact X) Sm Dc (regular_one e t O HR Hs) Er) as Hroot.
      split; [|cbn [i_r i_v i_lp]; intros ->; congruence]. constructor; cbn [i_t i_lp]; auto.
      intros a c Ha Hm. destruct (conditional_average e g r t st a c V F He Hn H1 Hs Ha Hm) as [q' [lp' [E' A]]].
      unfold conditional_on in E'. rewrite E in E'. injection E' as <- <-.
      assert (B : answers q a (prob_of a tq)) by (apply answers_semR; auto; [eapply tree_layered; eauto|apply fin_ok, Hq]).
      rewrite (answers_unique _ _ _ _ B A). pose proof (even_bayes (fun d => probR d (e (dvar d))) (fun d => probR d (c (dvar d))) t Hev N Hs) as HB. unfold prob_of in *. rewrite <- HB. field. lra.
Qed.

(** ** Intersections *)
Lemma disjointed_app A B : disjointed A -> disjointed B -> (forall i j x, In i A -> In j B -> ~ (in_sint i x = true /\ in_sint j x = true)) -> disjointed (A ++ B).
Proof.
  induction A as [|i A IH]; intros HA HB H; [exact HB|]. cbn [app disjointed] in *. destruct HA as [H1 H2]. split.
  - intros j Hj x Hx. apply in_app_iff in Hj. destruct Hj as [Hj|Hj]; [now apply (H1 j Hj x)|]. apply (H i j x); auto. now left.
  - apply IH; auto. intros i' j x Hi Hj. apply H; auto. now right.
Qed.

Lemma interval_inter_ok A B : interval_ok A -> interval_ok B -> interval_ok (interval_inter A B).
Proof.
  intros [HA DA] HB. split; [apply interval_inter_good; auto; apply HB|]. induction A as [|i A IH]; [exact I|].
  inversion HA as [|x y Hi HA']; subst. destruct DA as [D1 D2].
  replace (interval_inter (i :: A) B) with (interval_inter [i] B ++ interval_inter A B).
  2:{ unfold interval_inter. cbn [flat_map]. rewrite app_nil_r. symmetry. apply filter_app. }
  apply disjointed_app; [apply inter_ok; auto|auto|]. intros a b x Ha Hb [Xa Xb].
  unfold interval_inter in Ha, Hb. apply filter_In in Ha, Hb. destruct Ha as [Ha _], Hb as [Hb _]. apply in_flat_map in Ha, Hb. destruct Ha as [i' [[<-|[]] Ha]], Hb as [k [Hk Hb]].
  apply in_map_iff in Ha, Hb. destruct Ha as [j [<- Hj]], Hb as [j' [<- Hj']]. rewrite Forall_forall in HA'. destruct HB as [HB _]. rewrite Forall_forall in HB.
  rewrite sint_inter_points in Xa, Xb by auto. apply andb_true_iff in Xa, Xb. apply (D1 k Hk x). tauto.
Qed.

Lemma evset_ok_wf d A : evset_ok d A -> evset_wf d A.
Proof. destruct d, A; simpl; tauto. Qed.
Lemma evset_wf_good d A : evset_wf d A -> evset_good A.
Proof. destruct d, A; simpl; unfold interval_ok; tauto. Qed.

Lemma evset_inter_wf d A B : evset_wf d A -> evset_wf d B -> evset_wf d (evset_inter A B).
Proof. destruct d, A, B; simpl; try tauto; try apply interval_inter_ok. intros H _. now apply NoDup_filter. Qed.

(** The intersection of two simple sets. *)
Definition both_of (e a : sevent) : sevent := fun v => evset_inter (e v) (a v).

Lemma both_meet t e a : event_ok t e -> event_ok t a -> meet t (both_of e a) e a.
Proof.
  intros He Ha. eapply all_leaves_impl; [|exact (all_leaves_and _ _ _ He Ha)]. simpl. intros d [A B]. apply evset_ok_wf in A, B. unfold both_of. split.
  - now apply evset_inter_wf.
  - intros x. apply in_evset_inter; eapply evset_wf_good; eauto.
Qed.

Lemma probR_empty_list d : probR d (EInt []) = 0.
Proof. destruct d; cbn; unfold measure; cbn; auto; apply Rsum_zero; intros; unfold ind; cbn; lra. Qed.

Lemma probR_wf_nonneg d A : dist_ok d -> evset_wf d A -> 0 <= probR d A.
Proof.
  intros O W. destruct A as [[|i A]|l]; [rewrite probR_empty_list; lra| |]; apply probR_nonneg; auto; destruct d; cbn in *; try tauto; split; try tauto; discriminate.
Qed.

Lemma probR_wf_mono d A B : dist_ok d -> evset_wf d A -> evset_ok d B -> (forall x, in_evset A x = true -> in_evset B x = true) -> probR d A <= probR d B.
Proof.
  intros O W HB H. destruct A as [[|i A]|l]; [rewrite probR_empty_list; now apply probR_nonneg| |]; apply probR_mono; auto; destruct d; cbn in *; try tauto; split; try tauto; discriminate.
Qed.

Lemma meet_bounds t c e a : all_leaves dist_ok t -> event_ok t e -> meet t c e a -> all_leaves (fun d => 0 <= probR d (c (dvar d)) <= probR d (e (dvar d))) t.
Proof.
  intros O He Hm. eapply all_leaves_impl; [|exact (all_leaves_and _ _ _ O (all_leaves_and _ _ _ He Hm))]. simpl. intros d (A & B & W & X).
  split; [now apply probR_wf_nonneg|]. apply probR_wf_mono; auto. intros x. rewrite X. intros Y. apply andb_true_iff in Y. tauto.
Qed.

Lemma meet_zero t c e a : all_leaves dist_ok t -> event_ok t e -> meet t c e a -> prob_of e t = 0 -> prob_of c t = 0.
Proof.
  intros O He Hm Z. pose proof (meet_bounds _ _ _ _ O He Hm) as HB.
  assert (H0 : 0 <= prob_of c t) by (apply semR_nonneg; eapply all_leaves_impl; [|exact HB]; simpl; intros; tauto).
  destruct (Rlt_dec 0 (prob_of c t)) as [P|P]; [|lra]. exfalso.
  assert (0 < prob_of e t); [|lra]. revert P. apply semR_pos. eapply all_leaves_impl; [|exact HB]. simpl. intros d D. lra.
Qed.

(** ** The conditional circuits together *)
Definition part_of (r : id) (t : pc dist) (e : sevent) (o : option item) : Prop :=
  match o with None => prob_of e t = 0 | Some i => 0 < prob_of e t /\ conditioned t e i /\ (i_r i = r -> i_v i = Fin (i_lp i)) end.

Lemma parts_facts es g r t : valid_tree g r t -> fin_sums t -> Forall (regular t) es ->
  exists parts os, mapM (fun e => conditional_results (fun d => leaf_cond d (e (dvar d))) g empty_store) es = Some parts /\ Forall2 parted parts os /\ Forall2 (part_of r t) es os.
Proof.
  intros V F. induction 1 as [|e es He _ IH]; [exists [], []; repeat split; constructor|]. destruct IH as (parts & os & E & H1 & H2). cbn [mapM].
  destruct (part_facts e g r t empty_store V F He) as (part & Ep & [[Z P]|(Z & i & P & C & Hv)]); rewrite Ep, E.
  - exists (part :: parts), (None :: os). repeat split; constructor; auto.
  - exists (part :: parts), (Some i :: os). repeat split; constructor; auto. repeat split; auto; apply C.
Qed.

Lemma sum_somes {A B} (P : A -> option B -> Prop) (f : A -> R) (h : B -> R) l os : Forall2 P l os -> (forall a, P a None -> f a = 0) -> (forall a b, P a (Some b) -> f a = h b) ->
  Rsum (map f l) = Rsum (map h (somes os)).
Proof.
  intros H H0 H1. induction H as [|a o l os Ha H IH]; [reflexivity|]. cbn [map somes]. destruct o as [b|]; cbn [map Rsum fold_right]; unfold Rsum in *; cbn [fold_right].
  - rewrite IH, (H1 a b Ha). reflexivity.
  - rewrite IH, (H0 a Ha). ring.
Qed.

Lemma in_somes {A B} (P : A -> option B -> Prop) l os b : Forall2 P l os -> In b (somes os) -> exists a, In a l /\ P a (Some b).
Proof.
  induction 1 as [|a o l os Ha H IH]; [contradiction|]. cbn [somes]. destruct o as [b'|]; cbn [In].
  - intros [<-|Hb]; [exists a; auto with datatypes|]. destruct (IH Hb) as (a' & I1 & I2). exists a'. auto with datatypes.
  - intros Hb. destruct (IH Hb) as (a' & I1 & I2). exists a'. auto with datatypes.
Qed.

(** Conditioning on the union of pairwise disjoint [es] answers a valid circuit that gives every simple set [a] the
    probability P(a and es) / P(es); the [cs] are the intersections of the members of [es] with [a]. *)
Definition follows_bayes_event (es : list sevent) (g : graph dist) (t : pc dist) : Prop :=
  forall st, exists q rq tq lp, conditional_event es g st = Some (Some q, lp) /\ valid_tree q rq tq /\
    forall a cs, event_ok t a -> Forall2 (fun e c => meet t c e a) es cs ->
      answers q a (Rsum (map (fun c => prob_of c t) cs) / Rsum (map (fun e => prob_of e t) es)).

Lemma tree_answers q rq tq a : tree_circuit q rq tq -> all_leaves dist_ok tq -> event_ok tq a -> answers q a (prob_of a tq).
Proof. intros Hq O Ha. apply answers_semR; auto; [eapply tree_layered; eauto|apply fin_ok, Hq]. Qed.

Lemma total_pos es t : all_leaves dist_ok t -> Forall (fun e => event_ok t e) es -> Forall (fun x => 0 <= x) (map (fun e => prob_of e t) es).
Proof.
  intros O H. apply Forall_map. eapply Forall_impl; [|exact H]. intros e He. apply semR_nonneg. eapply all_leaves_impl; [|exact (all_leaves_and _ _ _ O He)].
  simpl. intros d [A B]. now apply probR_nonneg.
Qed.

(** The sum unit over the conditional circuits of [es]. *)
Definition part_in (t : pc dist) (e : sevent) (o : option item) : Prop :=
  match o with None => prob_of e t = 0 | Some i => 0 < prob_of e t /\ conditioned t e i end.

Lemma bayes_of_parts es t os G s z : all_leaves dist_ok t -> Forall (fun e => event_ok t e) es -> 0 < Rsum (map (fun e => prob_of e t) es) ->
  Forall2 (part_in t) es os -> exp z = Rsum (map (fun i => exp (i_lp i)) (somes os)) ->
  tree_circuit G s (PSum (map (fun i => (Fin (i_lp i - z), i_t i)) (somes os))) ->
  valid_tree G s (PSum (map (fun i => (Fin (i_lp i - z), i_t i)) (somes os))) /\
  forall a cs, event_ok t a -> Forall2 (fun e c => meet t c e a) es cs ->
    answers G a (Rsum (map (fun c => prob_of c t) cs) / Rsum (map (fun e => prob_of e t) es)).
Proof.
  intros O HR Hp Fo Ez HG. set (tq := PSum (map (fun i => (Fin (i_lp i - z), i_t i)) (somes os))) in *.
  assert (ET : Rsum (map (fun e => prob_of e t) es) = Rsum (map (fun i => exp (i_lp i)) (somes os))).
  { apply (sum_somes _ _ _ _ _ Fo); [auto|]. intros e i (_ & C). symmetry. apply C. }
  assert (HC : forall i, In i (somes os) -> exists e, In e es /\ conditioned t e i).
  { intros i Hi. destruct (in_somes _ _ _ _ Fo Hi) as (e & He & _ & C). eauto. }
  assert (Oq : all_leaves dist_ok tq).
  { unfold tq. cbn. apply fold_and_Forall. rewrite ?Forall_map. apply Forall_forall. intros i Hi. destruct (HC i Hi) as (e & _ & C). apply C. }
  split.
  - constructor; try apply HG; auto.
    + unfold normalised. cbn. split.
      * split; [rewrite !Forall_map; apply Forall_forall; intros; cbn; exact I|]. rewrite !map_map. cbn [fst wexp].
        rewrite (Rsum_ext _ (fun i => exp (i_lp i) / exp z)), Rsum_div, <- Ez; [field; pose proof (exp_pos z); lra|].
        intros i _. unfold Rminus. rewrite exp_plus, exp_Ropp. reflexivity.
      * apply fold_and_Forall. rewrite ?Forall_map. apply Forall_forall. intros i Hi. destruct (HC i Hi) as (e & _ & C). apply C.
    + unfold tq. cbn [smooth]. rewrite !map_map. split.
      * intros v Hv. assert (Hv' : mentions dist_vars t v).
        { cbn in Hv. rewrite map_map in Hv. clear - Hv HC. induction (somes os) as [|i l IH]; [contradiction|]. destruct Hv as [Hv|Hv].
          - destruct (HC i (or_introl eq_refl)) as (e & _ & C). now apply C.
          - apply IH; auto. intros j Hj. apply HC. now right. }
        apply fold_and_Forall. rewrite ?Forall_map. apply Forall_forall. intros i Hi. destruct (HC i Hi) as (e & _ & C). now apply C.
      * apply fold_and_Forall. rewrite ?Forall_map. apply Forall_forall. intros i Hi. destruct (HC i Hi) as (e & _ & C). apply C.
    + unfold tq. cbn [decomposable]. rewrite !map_map. apply fold_and_Forall. rewrite ?Forall_map. apply Forall_forall. intros i Hi. destruct (HC i Hi) as (e & _ & C). apply C.
  - intros a cs Ha Hm.
    assert (HA : event_ok tq a).
    { unfold event_ok, tq. cbn. apply fold_and_Forall. rewrite ?Forall_map. apply Forall_forall. intros i Hi. destruct (HC i Hi) as (e & _ & C). now apply (cd_event _ _ _ C). }
    replace (Rsum (map (fun c => prob_of c t) cs) / Rsum (map (fun e => prob_of e t) es)) with (prob_of a tq); [now apply (tree_answers _ _ _ _ HG)|].
    unfold prob_of at 1, tq. cbn [semR]. rewrite map_map. cbn [fst snd wexp]. rewrite ET, <- Ez.
    rewrite (Rsum_ext _ (fun i => (exp (i_lp i) * prob_of a (i_t i)) / exp z)), Rsum_div; [|intros i _; unfold Rminus; rewrite exp_plus, exp_Ropp; unfold prob_of, Rdiv; ring].
    f_equal. symmetry.
    assert (FZ : Forall2 (fun c o => exists e, In e es /\ meet t c e a /\ part_in t e o) cs os).
    { clear - Hm Fo. assert (Hin : incl es es) by apply incl_refl. revert Hin. generalize es at 2 3. intros es0 Hin. revert cs Hm. induction Fo as [|e o es os Ho Fo IH]; intros cs Hm; inversion Hm as [|? c ? cs' Hc Hcs]; subst; constructor.
      - exists e. split; [apply Hin; now left|]. auto.
      - apply IH; auto. intros x Hx. apply Hin. now right. }
    apply (sum_somes _ _ _ _ _ FZ).
    + intros c (e & Ie & M & Z). rewrite Forall_forall in HR. refine (meet_zero t c e a O _ M Z). now apply HR.
    + intros c i (e & Ie & M & Z & C). rewrite (cd_lp _ _ _ C), (cd_bayes _ _ _ C a c Ha M). field. lra.
Qed.


Theorem event_bayes es g r t : valid_tree g r t -> fin_sums t -> Forall (regular t) es -> 0 < Rsum (map (fun e => prob_of e t) es) -> follows_bayes_event es g t.
Proof.
  intros V F HR Hp st. pose proof (vt_ok _ _ _ V) as O.
  assert (Hone : forall e, es = [e] -> exists q rq tq lp, conditional_event es g st = Some (Some q, lp) /\ valid_tree q rq tq /\
    forall a cs, event_ok t a -> Forall2 (fun e c => meet t c e a) es cs -> answers q a (Rsum (map (fun c => prob_of c t) cs) / Rsum (map (fun e => prob_of e t) es))).
  { intros e ->. inversion HR as [|? ? He _]; subst. cbn in Hp.
    destruct (part_facts e g r t st V F He) as (part & Ep & [[Z P]|(Z & i & P & C & _)]); [lra|]. destruct part as [[oq lp] st1]. destruct P as (P1 & P2 & P3).
    cbn [fst snd] in *. injection P1 as -> ->. exists (i_q i), (i_r i), (i_t i), (Fin (i_lp i)).
    split; [cbn; unfold conditional_on; rewrite results_simple, Ep; reflexivity|]. split; [constructor; try apply P3; apply C|].
    intros a cs Ha Hm. inversion Hm as [|? c ? ? Hc Hn]; subst. inversion Hn; subst. cbn [map Rsum fold_right]. rewrite !Rplus_0_r. rewrite <- (cd_bayes _ _ _ C a c Ha Hc).
    apply (tree_answers _ _ _ _ P3); [apply C|now apply C]. }
  destruct es as [|e0 [|e1 es']] eqn:Ees; [cbn in Hp; lra|now apply (Hone e0)|]. rewrite <- Ees in *. clear Hone.
  destruct (parts_facts es g r t V F HR) as (parts & os & Em & Fp & Fo). destruct (mount_parts_correct _ _ Fp) as [_ HM].
  assert (ET : Rsum (map (fun e => prob_of e t) es) = Rsum (map (fun i => exp (i_lp i)) (somes os))).
  { apply (sum_somes _ _ _ _ _ Fo); [auto|]. intros e i (_ & C & _). symmetry. apply C. }
  assert (Hne : somes os <> []) by (intros E; rewrite ET, E in Hp; cbn in Hp; lra).
  destruct (HM Hne) as (G & z & EG & Ez & HG). set (tq := PSum (map (fun i => (Fin (i_lp i - z), i_t i)) (somes os))) in *.
  exists G, 0%nat, tq, (logsumexp (map (fun i => nadd (Fin (i_lp i)) (i_v i)) (somes os))).
  split; [unfold conditional_event; rewrite Ees, <- Ees, Em; exact EG|].
  apply bayes_of_parts; auto.
  - eapply Forall_impl; [|exact HR]. intros e He. apply He.
  - clear -Fo. induction Fo as [|e o es os H _ IH]; constructor; [|exact IH]. destruct o as [i|]; [|exact H]. cbn in *. tauto.
Qed.

(** ** C09 *)

(** No point lies in both simple sets: they part on a variable of the circuit. *)
Definition apart (t : pc dist) (e e' : sevent) : Prop := exists v, mentions dist_vars t v /\ forall x, in_evset (e v) x && in_evset (e' v) x = false.
Definition pairwise_apart (t : pc dist) : list sevent -> Prop := ForallOrdPairs (apart t).

Definition C09_event_full : Prop := forall es g r t, valid_tree g r t -> Forall (fun e => event_ok t e) es -> pairwise_apart t es ->
  0 < Rsum (map (fun e => prob_of e t) es) -> follows_bayes_event es g t.

(** Proved part: the guards of [C09_bayes_partial] for every member of the union.  They hold in particular for every fully
    factorised circuit and every union of boxes without isolated points. *)
Theorem C09_event_partial es g r t : valid_tree g r t -> fin_sums t -> Forall (regular t) es -> pairwise_apart t es ->
  0 < Rsum (map (fun e => prob_of e t) es) -> follows_bayes_event es g t.
Proof. intros V F HR _ Hp. eapply event_bayes; eauto. Qed.

Theorem C09_event_refuted : ~ C09_event_full.
Proof.
  intros H. apply C09_bayes_refuted. intros e g r t V He Hp st.
  destruct (H [e] g r t V ltac:(auto) ltac:(repeat constructor) ltac:(cbn; lra) st) as (q & rq & tq & lp & E & _ & A).
  exists q, lp. split; [exact E|]. intros a c Ha Hm. specialize (A a [c] Ha ltac:(auto)). cbn in A. now rewrite !Rplus_0_r in A.
Qed.

(** ** C10 *)
Lemma semR_zero val t v : smooth dist_vars t -> mentions dist_vars t v -> all_leaves (fun d => dvar d = v -> val d = 0) t -> semR val t = 0.
Proof.
  induction t as [d|l IH|l IH] using pc_ind'; cbn [smooth mentions semR]; intros Hs Hm H.
  - destruct Hm as [E|[]]. exact (H E).
  - destruct Hs as [H1 H2]. apply H1 in Hm. apply fold_and_Forall in Hm, H2. cbn in H. apply fold_and_Forall in H. rewrite Forall_forall in *.
    apply Rsum_zero. intros wt Hw. rewrite IH; auto. ring.
  - apply fold_and_Forall in Hs. cbn in H. apply fold_and_Forall in H. rewrite Forall_forall in *.
    assert (Hx : exists c, In c l /\ mentions dist_vars c v).
    { clear - Hm. induction l as [|c l IH]; [contradiction|]. destruct Hm as [Hm|Hm]; [exists c; cbn; auto|]. destruct (IH Hm) as (c' & ? & ?). exists c'. cbn. auto. }
    destruct Hx as (c & Hc & Hv). apply in_split in Hc. destruct Hc as (l1 & l2 & El). subst l. rewrite map_app, Rprod_app. cbn [map].
    assert (Hc : In c (l1 ++ c :: l2)) by (apply in_or_app; right; now left). unfold Rprod at 2. cbn [fold_right]. rewrite (IH c Hc (Hs c Hc) Hv (H c Hc)). ring.
Qed.

Lemma probR_wf_empty d A : dist_ok d -> evset_wf d A -> (forall x, in_evset A x = false) -> probR d A = 0.
Proof.
  intros O W H. destruct A as [[|i A]|l]; [apply probR_empty_list| |].
  - exfalso. assert (Hi : interval_ok (i :: A)) by (destruct d; cbn in W; tauto). destruct Hi as [Hi _]. inversion Hi as [|? ? [L1 [L2 [U1 [U2 Hi']]]] _]; subst.
    assert (Hx : exists x, in_sint i x = true).
    { destruct i as [lo hi lc rc]. cbn in *. destruct Hi' as [Hlt|[a (-> & -> & -> & ->)]].
      - destruct lo as [| |a|], hi as [| |b|]; try tauto.
        + exists (b - 1). unfold in_sint, above, below. cbn. destruct lc, rc; rb; cbn; auto; try lra.
        + exists 0. reflexivity.
        + exists ((a + b) / 2). cbn in Hlt. unfold in_sint, above, below. cbn. destruct lc, rc; rb; cbn; auto; try lra.
        + exists (a + 1). unfold in_sint, above, below. cbn. destruct lc, rc; rb; cbn; auto; try lra.
      - exists a. unfold in_sint, above, below. cbn. rb; cbn; auto; try lra. }
    destruct Hx as [x Hx]. specialize (H x). cbn in H. rewrite Hx in H. discriminate.
  - destruct l as [|k l]; [destruct d; cbn in *; try tauto; apply Rsum_zero; intros; unfold ind; cbn; lra|]. exfalso. specialize (H (IZR k)). cbn in H.
    destruct (Reqb_spec (IZR k) (IZR k)); [discriminate|tauto].
Qed.

Lemma apart_zero t e a : smooth dist_vars t -> all_leaves dist_ok t -> event_ok t e -> event_ok t a -> apart t e a -> prob_of (both_of e a) t = 0.
Proof.
  intros Sm O He Ha (v & Hv & Hx). apply (semR_zero _ _ v); auto.
  eapply all_leaves_impl; [|exact (all_leaves_and _ _ _ O (both_meet t e a He Ha))]. simpl. intros d (A & W & X) E. apply probR_wf_empty; auto.
  intros x. rewrite X, E. apply Hx.
Qed.

Lemma both_same t e : all_leaves dist_ok t -> event_ok t e -> prob_of (both_of e e) t = prob_of e t.
Proof.
  intros O He. unfold prob_of. apply semR_ext. eapply all_leaves_impl; [|exact (all_leaves_and _ _ _ O (all_leaves_and _ _ _ He (both_meet t e e He He)))]. simpl.
  intros d (A & B & W & X). assert (Hx : forall x, in_evset (both_of e e (dvar d)) x = in_evset (e (dvar d)) x) by (intros x; rewrite X; apply andb_diag).
  apply Rle_antisym; [apply probR_wf_mono; auto; intros x; now rewrite Hx|].
  destruct (both_of e e (dvar d)) as [[|i l]|l] eqn:Eb.
  - rewrite (probR_wf_empty d (e (dvar d))); auto; [rewrite probR_empty_list; lra|now apply evset_ok_wf|]. intros x. now rewrite <- Hx.
  - apply probR_mono; auto; [destruct d; cbn in *; try tauto; split; try tauto; discriminate|intros x; now rewrite Hx].
  - apply probR_mono; auto; intros x; now rewrite Hx.
Qed.

Lemma apart_sym t e e' : apart t e e' -> apart t e' e.
Proof. intros (v & Hv & H). exists v. split; auto. intros x. rewrite andb_comm. apply H. Qed.

Lemma pairwise_sum t es a : smooth dist_vars t -> all_leaves dist_ok t -> Forall (fun e => event_ok t e) es -> pairwise_apart t es -> In a es ->
  Rsum (map (fun e => prob_of (both_of e a) t) es) = prob_of a t.
Proof.
  intros Sm O He Hp. revert He. induction Hp as [|e es H1 _ IH]; intros He Ha; [contradiction|]. inversion He as [|? ? He1 He2]; subst. rewrite Forall_forall in He2, H1.
  cbn [map Rsum fold_right]. change (fold_right Rplus 0 ?l) with (Rsum l). destruct Ha as [<-|Ha].
  - rewrite both_same by auto. rewrite Rsum_zero; [ring|]. intros e' Hi. apply apart_zero; auto. apply apart_sym. auto.
  - rewrite IH, apart_zero by (auto; now apply Forall_forall). ring.
Qed.

(** The conditional circuit is a valid circuit that gives the union of [es] the probability 1. *)
Definition concentrated_event (es : list sevent) (g : graph dist) : Prop :=
  forall st, exists q rq tq lp ps, conditional_event es g st = Some (Some q, lp) /\ valid_tree q rq tq /\ Forall2 (answers q) es ps /\ Rsum ps = 1.

Definition C10_event_full : Prop := forall es g r t, valid_tree g r t -> Forall (fun e => event_ok t e) es -> pairwise_apart t es ->
  0 < Rsum (map (fun e => prob_of e t) es) -> concentrated_event es g.

(** Proved part: the guards of [C09_event_partial]. *)
Theorem C10_event_partial es g r t : valid_tree g r t -> fin_sums t -> Forall (regular t) es -> pairwise_apart t es ->
  0 < Rsum (map (fun e => prob_of e t) es) -> concentrated_event es g.
Proof.
  intros V F HR Ha Hp st. destruct (event_bayes es g r t V F HR Hp st) as (q & rq & tq & lp & E & Vq & A).
  set (Z := Rsum (map (fun e => prob_of e t) es)) in *. exists q, rq, tq, lp, (map (fun e => prob_of e t / Z) es).
  assert (He : Forall (fun e => event_ok t e) es) by (eapply Forall_impl; [|exact HR]; intros e Hr; apply Hr).
  split; [exact E|]. split; [exact Vq|]. split.
  - assert (Hin : forall a, In a es -> answers q a (prob_of a t / Z)).
    { intros a Ia. rewrite Forall_forall in He. assert (Hm : Forall2 (fun e c => meet t c e a) es (map (fun e => both_of e a) es)).
      { clear - He Ia. assert (Ha := He a Ia). clear Ia. induction es as [|e es IH]; cbn [map]; constructor; [apply both_meet; auto; apply He; now left|]. apply IH. intros x Hx. apply He. now right. }
      specialize (A a _ (He a Ia) Hm). rewrite map_map in A. rewrite pairwise_sum in A; auto; [apply V|apply V|now apply Forall_forall]. }
    clear - Hin. clearbody Z. induction es as [|e es IH]; cbn [map]; constructor; [apply Hin; now left|]. apply IH. intros a Ia. apply Hin. now right.
  - rewrite Rsum_div. fold Z. field. lra.
Qed.

Theorem C10_event_refuted : ~ C10_event_full.
Proof.
  intros H. pose proof zero_marginal_valid as V.
  assert (He : event_ok zero_marginal_tree both) by (cbn; repeat split; repeat constructor; cbn; intuition discriminate).
  assert (E1 : prob_of both zero_marginal_tree = 1).
  { apply semR_one; [apply V|]. cbn. unfold ind. cbn. repeat split; auto; rb; cbn; try lra. }
  destruct (H [both] _ _ _ V ltac:(auto) ltac:(repeat constructor) ltac:(cbn [map Rsum fold_right]; lra) empty_store) as (q & rq & tq & lp & ps & E & Vq & _).
  destruct zero_conditional as [q' [lp' [E' R]]]. cbn [conditional_event] in E. rewrite E in E'. injection E' as <- <-.
  pose proof (tree_root _ _ (vt_tree _ _ _ Vq)). congruence.
Qed.

(** ** C08 *)


(** The claim for pairwise disjoint unions, even under the guards of [C09_event_partial]. *)
Definition event_returns (es : list sevent) (g : graph dist) (p : R) : Prop :=
  forall st, exists res lp, conditional_event es g st = Some (res, lp) /\ nexp lp = Fin p /\ (res = None <-> p = 0).
Definition C08_event_full : Prop := forall es g r t, valid_tree g r t -> fin_sums t -> Forall (regular t) es -> pairwise_apart t es ->
  event_returns es g (Rsum (map (fun e => prob_of e t) es)).

(** What is returned for two or more simple sets when the cleaned circuits keep their root unit: the sum of the squares of the
    probabilities, because [log_forward] finds the log probabilities as log weights and again as results of the children.
    The circuit is missing exactly when all simple sets are impossible. *)
Theorem C08_event_returned_partial es g r t : valid_tree g r t -> fin_sums t -> Forall (regular t) es -> (2 <= length es)%nat ->
  (forall e st q lp, In e es -> conditional_on e g st = Some (Some q, lp) -> root q = Some r) ->
  event_returns es g (Rsum (map (fun e => prob_of e t * prob_of e t) es)).
Proof.
  intros V F HR Hl Hroot st. assert (Ees : exists e0 e1 es', es = e0 :: e1 :: es').
  { destruct es as [|e0 [|e1 es']]; cbn in Hl; try lia. eauto. }
  destruct Ees as (e0 & e1 & es' & Ees). destruct (parts_facts es g r t V F HR) as (parts & os & Em & Fp & Fo). destruct (mount_parts_correct _ _ Fp) as [H0 HM].
  assert (ET : Rsum (map (fun e => prob_of e t * prob_of e t) es) = Rsum (map (fun i => exp (i_lp i) * exp (i_lp i)) (somes os))).
  { apply (sum_somes _ _ _ _ _ Fo); [cbn; intros e ->; ring|]. intros e i (_ & C & _). now rewrite (cd_lp _ _ _ C). }
  assert (Ev : forall i, In i (somes os) -> i_v i = Fin (i_lp i)).
  { assert (HF : Forall2 (fun e part => conditional_results (fun d => leaf_cond d (e (dvar d))) g empty_store = Some part) es parts) by now apply mapM_Forall2.
    assert (He : forall e st q lp, In e es -> conditional_on e g st = Some (Some q, lp) -> root q = Some r) by exact Hroot.
    clear - HF Fp Fo He. revert os Fp Fo. induction HF as [|e part es parts Ep HF IH]; intros os Fp Fo; inversion Fp as [|? o ? os' P1 P2]; subst; [contradiction|].
    inversion Fo as [|? ? ? ? O1 O2]; subst. cbn [somes].
    assert (IH' : forall i, In i (somes os') -> i_v i = Fin (i_lp i)) by (apply IH; auto; intros; eapply He; eauto; now right).
    destruct o as [i|]; [|exact IH']. intros j [<-|Hj]; [|auto]. destruct O1 as (_ & _ & Hv). apply Hv. destruct part as [[oq lp] st1]. destruct P1 as (P1 & _ & P3). cbn [fst snd] in *. injection P1 as -> ->.
    assert (Er : root (i_q i) = Some r).
    { apply (He e empty_store _ (Fin (i_lp i)) (or_introl eq_refl)). unfold conditional_on. now rewrite results_simple, Ep. }
    rewrite (tree_root _ _ (tc_tree _ _ _ P3)) in Er. congruence. }
  unfold conditional_event. rewrite Ees. rewrite <- Ees. rewrite Em. destruct (somes os) as [|i0 is] eqn:Eis; rewrite <- ?Eis in *.
  - exists None, NInf. rewrite ET, Eis. split; [now apply H0|]. cbn. tauto.
  - destruct (HM ltac:(rewrite Eis; discriminate)) as (G & z & EG & _). eexists _, _. split; [exact EG|].
    rewrite (map_ext_in _ (fun i => Fin (i_lp i + i_lp i))) by (intros i Hi; rewrite Ev; auto).
    assert (Ew : Rsum (map wexp (map (fun i => Fin (i_lp i + i_lp i)) (somes os))) = Rsum (map (fun i => exp (i_lp i) * exp (i_lp i)) (somes os))).
    { rewrite map_map. apply Rsum_ext. intros i _. cbn. apply exp_plus. }
    assert (Hpos : 0 < Rsum (map (fun i => exp (i_lp i) * exp (i_lp i)) (somes os))).
    { rewrite Eis. cbn [map Rsum fold_right]. apply Rplus_lt_le_0_compat; [apply Rmult_lt_0_compat; apply exp_pos|]. apply Rsum_nonneg, Forall_map, Forall_forall. intros i _. apply Rmult_le_pos; left; apply exp_pos. }
    destruct (logsumexp_weights (map (fun i => Fin (i_lp i + i_lp i)) (somes os))) as (y & Ey & Ey'); [apply Forall_map, Forall_forall; intros; exact I|now rewrite Ew|].
    rewrite Ey. cbn. rewrite Ey', Ew, ET. split; [reflexivity|]. split; [discriminate|]. intros E. rewrite E in Hpos. lra.
Qed.

(** Whether there is a circuit at all, for any number of simple sets: exactly when one of them is possible; otherwise the log
    probability is minus infinity.  Missing: the number that is returned along with a circuit. *)
Theorem C08_event_none_partial es g r t : valid_tree g r t -> fin_sums t -> Forall (regular t) es ->
  forall st, exists res lp, conditional_event es g st = Some (res, lp) /\ (res = None <-> Rsum (map (fun e => prob_of e t) es) = 0) /\ (res = None -> lp = NInf).
Proof.
  intros V F HR st. assert (Hn : Forall (fun e => 0 <= prob_of e t) es).
  { apply Forall_forall. intros e He. rewrite Forall_forall in HR. unfold prob_of. apply semR_nonneg. eapply all_leaves_impl; [|exact (all_leaves_and _ _ _ (vt_ok _ _ _ V) (rg_ok _ _ (HR e He)))].
    cbn. intros d [H1 H2]. apply probR_wf_nonneg; [exact H1|now apply evset_ok_wf]. }
  destruct (Rle_lt_dec (Rsum (map (fun e => prob_of e t) es)) 0) as [Z|P].
  - assert (Hz : forall e, In e es -> prob_of e t = 0).
    { assert (Hs : Rsum (map (fun e => prob_of e t) es) = 0) by (apply Rle_antisym; [exact Z|]; apply Rsum_nonneg; rewrite Forall_map; exact Hn).
      apply Rsum_nonneg_zero in Hs; [|now rewrite Forall_map]. rewrite Forall_map, Forall_forall in Hs. exact Hs. }
    assert (Hs : Rsum (map (fun e => prob_of e t) es) = 0) by (now apply Rsum_zero).
    exists None, NInf. split; [|tauto]. destruct es as [|e0 [|e1 es']] eqn:Ees; [reflexivity| |].
    + inversion HR as [|? ? He _]; subst. destruct (C08_conditional_probability_partial e0 g r t V F (rg_ok _ _ He) (rg_points _ _ He)) as [_ HC]. destruct (HC st) as (res & lp & E & El & Er).
      specialize (Hz e0 (or_introl eq_refl)). rewrite Hz in El. cbn [conditional_event]. rewrite E, (proj2 Er Hz). now rewrite (nexp_zero _ El).
    + rewrite <- Ees in *. destruct (parts_facts es g r t V F HR) as (parts & os & Em & Fp & Fo). destruct (mount_parts_correct _ _ Fp) as [H0 _].
      unfold conditional_event. rewrite Ees. rewrite <- Ees. rewrite Em. apply H0.
      clear - Fo Hz. induction Fo as [|e o es os H Fo IH]; [reflexivity|]. destruct o as [i|]; cbn [somes].
      * exfalso. destruct H as (H & _). specialize (Hz e (or_introl eq_refl)). lra.
      * apply IH. intros e' He'. apply Hz. now right.
  - destruct (event_bayes es g r t V F HR P st) as (q & rq & tq & lp & E & _). exists (Some q), lp. split; [exact E|]. split; [split; [discriminate|lra]|discriminate].
Qed.

(** ** The uniform distribution on the unit square *)
Definition square_tree : pc dist := PProd [PLeaf (DUnif 0 (iclosed 0 1)); PLeaf (DUnif 1 (iclosed 0 1))].
Definition square : graph dist :=
  mkGraph [(0, UProd); (1, ULeaf (DUnif 0 (iclosed 0%R 1%R))); (2, ULeaf (DUnif 1 (iclosed 0%R 1%R)))]%nat [mkEdge 0 1 None; mkEdge 0 2 None]%nat.
Definition block (a b : R) : sevent := fun _ => EInt [iclosed a b].

Lemma square_valid : valid_tree square 0%nat square_tree /\ fin_sums square_tree.
Proof.
  split; [constructor|cbn; repeat split; repeat constructor].
  - split; [concrete_wf|]. split; [exists (fun u => 5 - u)%nat; on_edges|].
    split; [cbn; tauto|]. split; [cbn; repeat constructor; cbn; intuition lia|].
    split; [|cbn; intuition lia]. cbn. intros u H Hn. repeat (destruct H as [<-|H]; [tauto|]). tauto.
  - intros e d H. repeat destruct H as [<-|H]; cbn; try discriminate. destruct H.
  - unfold square_tree. unf.
  - cbn. repeat split; try (repeat constructor).
  - cbn. repeat split; intuition.
  - cbn. repeat split; try constructor; intuition congruence.
  - cbn. split; [exists 0, 1|split; [exists 0, 1|auto]]; cbn; repeat split; auto; lra.
Qed.

Lemma block_prob1 v a b : 0 <= a -> a < b -> b <= 1 -> probR (DUnif v (iclosed 0 1)) (EInt [iclosed a b]) = b - a.
Proof.
  intros Ha Hb Hc. cbn. unfold measure, delta. cbn. replace ((b - 0) / (1 - 0)) with b by field. replace ((a - 0) / (1 - 0)) with a by field.
  rewrite !(Rmax_right 0), !(Rmin_right 1) by (rewrite ?Rmax_right; lra). ring.
Qed.

Lemma block_inter v a b : 0 <= a -> a < b -> b <= 1 -> support_inter (DUnif v (iclosed 0 1)) [iclosed a b] = [iclosed a b].
Proof.
  intros Ha Hb Hc. unfold support_inter, interval_inter. cbn. unfold sint_inter, nmax_lo, nmin_hi. cbn. unfold iclosed.
  rb; try lra; cbn; unfold sint_empty; cbn; rb; try lra; cbn; repeat f_equal; lra.
Qed.

Lemma block_regular a b : 0 <= a -> a < b -> b <= 1 -> regular square_tree (block a b).
Proof.
  intros Ha Hb Hc. assert (I1 : sint_ok (iclosed a b)) by (bounds; left; lra). constructor.
  - cbn. split; [|split; [|auto]]; now apply interval_one.
  - cbn [all_leaves square_tree map fold_right]. unfold no_points, block. rewrite !block_inter by auto. cbn. repeat split; intros j [<-|[]]; unfold is_singleton; cbn; rb; auto; lra.
  - cbn [all_leaves square_tree map fold_right]. unfold one_piece, block. rewrite !block_inter by auto. cbn. repeat split; lia.
  - cbn. tauto.
Qed.

Lemma block_prob a b : 0 <= a -> a < b -> b <= 1 -> prob_of (block a b) square_tree = (b - a) * (b - a).
Proof. intros Ha Hb Hc. unfold prob_of, square_tree, block. cbn [semR map Rprod fold_right dvar]. rewrite !block_prob1 by auto. ring. Qed.

Lemma block_root a b st q lp : 0 <= a -> a < b -> b <= 1 -> conditional_on (block a b) square st = Some (Some q, lp) -> root q = Some 0%nat.
Proof.
  intros Ha Hb Hc. unfold conditional_on. set (lc := fun d => leaf_cond d (block a b (dvar d))).
  assert (HL : forall v, exists d l, lc (DUnif v (iclosed 0 1)) = Some (LOne d (Fin l))).
  { intros v. assert (I1 : sint_ok (iclosed a b)) by (bounds; left; lra).
    assert (O : dist_ok (DUnif v (iclosed 0 1))) by (exists 0, 1; cbn; repeat split; auto; lra).
    assert (He : evset_ok (DUnif v (iclosed 0 1)) (block a b v)) by now apply interval_one.
    assert (Hn : no_points (DUnif v (iclosed 0 1)) (block a b v)).
    { unfold no_points, block. rewrite block_inter by auto. intros j [<-|[]]; unfold is_singleton; cbn; rb; auto; lra. }
    pose proof (pmass_prob _ _ O He Hn) as EP. unfold block in EP at 2. rewrite block_prob1 in EP by auto.
    destruct (leaf_cond_spec _ _ O He (no_points_cap _ _ Hn)) as [[K1 _]|[[K1 (d & l & K2 & K3 & _)]|[K1 (js & l & l' & K2 & K3 & K4 & Kc & K5 & _)]]].
    - lra.
    - exists d. rewrite EP in K3. unfold lc. destruct l as [| |l|]; cbn in K3; try discriminate; [apply (f_equal (fun n => match n with Fin x => x | _ => 0 end)) in K3; cbn in K3; lra|]. exists l. exact K2.
    - unfold block in K2. injection K2 as <-. rewrite block_inter in K5 by auto. cbn in K5. lia. }
  destruct (HL 0%nat) as (d1 & l1 & E1), (HL 1%nat) as (d2 & l2 & E2). clearbody lc. clear HL.
  unfold conditional_simple, conditional_finish. change (bottom_up square) with (Some [1;2;0]%nat). cbn [foldM].
  unfold unit_conditional at 1. cbn [node_kind square g_nodes find fst snd Nat.eqb]. unfold leaf_conditional. rewrite E1.
  unfold unit_conditional at 1. cbn. rewrite E2. unfold unit_conditional. cbn. intros E. injection E as <- _. reflexivity.
Qed.

Lemma blocks_apart a b c d : b < c -> pairwise_apart square_tree [block a b; block c d].
Proof.
  intros H. repeat constructor. exists 0%nat. split; [cbn; tauto|]. intros x. unfold block. cbn. unfold in_sint, above, below. cbn. rb; cbn; auto; lra.
Qed.

(** The probability of the union of the blocks [0, 1/2] and [3/4, 1] is 1/4 + 1/16, but the number returned is 1/16 + 1/256. *)
Theorem C08_event_refuted : ~ C08_event_full.
Proof.
  intros H. destruct square_valid as [V F]. set (es := [block 0 (1/2); block (3/4) 1]).
  assert (HR : Forall (regular square_tree) es) by (apply Forall_cons; [|apply Forall_cons; [|apply Forall_nil]]; apply block_regular; lra).
  destruct (H es square _ _ V F HR ltac:(apply blocks_apart; lra) empty_store) as (res & lp & E & E1 & _).
  destruct (C08_event_returned_partial es square _ _ V F HR ltac:(cbn; lia) ltac:(intros e st q lp' [<-|[<-|[]]]; apply block_root; lra) empty_store) as (res' & lp' & E' & E1' & _).
  rewrite E in E'. injection E' as <- <-. rewrite E1 in E1'. apply (f_equal (fun n => match n with Fin x => x | _ => 0 end)) in E1'. cbv beta iota in E1'.
  unfold es in E1'. cbn [map Rsum fold_right] in E1'. rewrite !block_prob in E1' by lra. lra.
Qed.

(** ** Overlapping simple sets: the docstring (PC.py:885-888) claims that the conditional distribution is right also if the simple
    sets overlap.  For nested sets the union is the larger one. *)
Definition nested (t : pc dist) (e e' : sevent) : Prop := all_leaves (fun d => forall x, in_evset (e (dvar d)) x = true -> in_evset (e' (dvar d)) x = true) t.
Definition C09_overlap_full : Prop := forall e e' g r t, valid_tree g r t -> fin_sums t -> regular t e -> regular t e' -> nested t e e' -> 0 < prob_of e t ->
  forall st, exists q lp, conditional_event [e; e'] g st = Some (Some q, lp) /\ forall a c, event_ok t a -> meet t c e' a -> answers q a (prob_of c t / prob_of e' t).

(** The unit square conditioned on [0, 1/2]² and [0, 1]²: the smaller block has probability 2/5 instead of 1/4. *)
Theorem C09_overlap_refuted : ~ C09_overlap_full.
Proof.
  intros H. destruct square_valid as [V F]. assert (R1 : regular square_tree (block 0 (1/2))) by (apply block_regular; lra). assert (R2 : regular square_tree (block 0 1)) by (apply block_regular; lra).
  assert (P1 : prob_of (block 0 (1/2)) square_tree = 1/4) by (rewrite block_prob by lra; lra).
  assert (P2 : prob_of (block 0 1) square_tree = 1) by (rewrite block_prob by lra; lra).
  assert (N : nested square_tree (block 0 (1/2)) (block 0 1)).
  { cbn. unfold in_sint, above, below. cbn. repeat split; intros x; rb; cbn; auto; try discriminate; lra. }
  assert (M : forall b, 0 < b -> b <= 1 -> 1/2 <= b -> meet square_tree (block 0 (1/2)) (block 0 b) (block 0 (1/2))).
  { intros b B1 B2 B3. assert (I1 : sint_ok (iclosed 0 (1/2))) by (bounds; left; lra). cbn. unfold in_sint, above, below. cbn. split; [|split; [|auto]]; (split; [now apply interval_one|]); intros x; rb; cbn; auto; lra. }
  destruct (H _ _ square _ _ V F R1 R2 N ltac:(lra) empty_store) as (q & lp & E & A). specialize (A (block 0 (1/2)) (block 0 (1/2)) (rg_ok _ _ R1) (M 1 ltac:(lra) ltac:(lra) ltac:(lra))).
  destruct (event_bayes [block 0 (1/2); block 0 1] square _ _ V F ltac:(auto) ltac:(cbn [map Rsum fold_right]; lra) empty_store) as (q' & rq & tq & lp' & E' & _ & B).
  rewrite E in E'. injection E' as <- <-. specialize (B (block 0 (1/2)) [block 0 (1/2); block 0 (1/2)] (rg_ok _ _ R1)).
  assert (C : answers q (block 0 (1/2)) ((1/4 + (1/4 + 0)) / (1/4 + (1 + 0)))).
  { cbn [map Rsum fold_right] in B. rewrite P1, P2 in B. apply B. constructor; [apply M; lra|]. constructor; [apply M; lra|constructor]. }
  pose proof (answers_unique _ _ _ _ A C) as EA. rewrite P1, P2 in EA. lra.
Qed.

(** ** Concrete cases *)
Example square_diagonal : follows_bayes_event [block 0 (1/2); block (3/4) 1] square square_tree /\ concentrated_event [block 0 (1/2); block (3/4) 1] square /\
  event_returns [block 0 (1/2); block (3/4) 1] square (17 / 256).
Proof.
  destruct square_valid as [V F]. assert (HR : Forall (regular square_tree) [block 0 (1/2); block (3/4) 1]) by (apply Forall_cons; [|apply Forall_cons; [|apply Forall_nil]]; apply block_regular; lra).
  assert (HA : pairwise_apart square_tree [block 0 (1/2); block (3/4) 1]) by (apply blocks_apart; lra).
  assert (HP : 0 < Rsum (map (fun e => prob_of e square_tree) [block 0 (1/2); block (3/4) 1])) by (cbn [map Rsum fold_right]; rewrite !block_prob by lra; lra).
  split; [eapply C09_event_partial; eauto|]. split; [eapply C10_event_partial; eauto|].
  replace (17 / 256) with (Rsum (map (fun e => prob_of e square_tree * prob_of e square_tree) [block 0 (1/2); block (3/4) 1])) by (cbn [map Rsum fold_right]; rewrite !block_prob by lra; lra).
  eapply C08_event_returned_partial; eauto. intros e st q lp [<-|[<-|[]]]; apply block_root; lra.
Qed.

Print Assumptions C08_event_returned_partial.
Print Assumptions C08_event_none_partial.
Print Assumptions C08_event_refuted.
Print Assumptions C09_event_partial.
Print Assumptions C09_event_refuted.
Print Assumptions C09_overlap_refuted.
Print Assumptions C10_event_partial.
Print Assumptions C10_event_refuted.
