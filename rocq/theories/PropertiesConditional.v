(** * Properties C08, C09 and C10: conditioning on simple events *)
From Coq Require Import List Arith Bool Lia Reals Lra ZArith.
From Verif Require Import Num Graph GraphFacts Spec SpecFacts Circuit EvalFacts VarFacts PropertiesQuery Interval GaussInt Dist DistFacts CondFacts
  TreeProb PropertiesProb PropertiesDist Simplify SimplifyFacts TreeLocal PropertiesSimplify Restrict MarginalFacts PropertiesMarginal
  Conditional ConditionalFacts CondPass CondMain LeafCond CondBayes.
Import ListNotations.
Local Open Scope R_scope.

(** The probability of the simple event [e], read off the tree. *)
Definition prob_of (e : sevent) (t : pc dist) : R := semR (fun d => probR d (e (dvar d))) t.

(** ** Facts about the leaves *)

(** What is known about the leaves of a conditional circuit. *)
Definition leaf_on (e : sevent) (q : dist) : Prop := dist_ok q /\ evset_ok q (e (dvar q)) /\ probR q (e (dvar q)) = 1.

Lemma leaf_good_gen (Q : dist -> Prop) e d : dist_ok d -> evset_ok d (e (dvar d)) -> cap_ok d ->
  (forall q, on_event d (e (dvar d)) q -> Q q) ->
  leaf_good (fun d => leaf_cond d (e (dvar d))) (fun d => Fin (pmass d (e (dvar d)))) dist_vars Q d.
Proof.
  intros Hok He Hc Hon.
  destruct (leaf_cond_spec d (e (dvar d)) Hok He Hc) as [[H1 H2]|[[H1 [q [lp [H2 [H3 [H4 _]]]]]]|[H1 [js [l [lp [H2 [H3 [H4 [_ [H5 H6]]]]]]]]]]].
  - split; [exists 0; split; [lra|now rewrite H1]|]. exists LDead. split; auto. now rewrite H1.
  - split; [exists (pmass d (e (dvar d))); split; [lra|auto]|]. exists (LOne q lp). split; [auto|split; [auto|split; [auto|]]].
    unfold dist_vars. destruct H4 as [_ [-> _]]. auto.
  - split; [exists (pmass d (e (dvar d))); split; [lra|auto]|]. exists (LMany l lp). split; [auto|split; [auto|split; [|split]]].
    + intros E. injection E as E. lra.
    + intros ->. inversion H6 as [E|]. rewrite <- E in H5. simpl in H5. lia.
    + clear - H6 Hon. induction H6 as [|j pd J l [A [B [C _]]] H IH]; constructor; auto. split; [eauto|split; [auto|]].
      unfold dist_vars. destruct C as [_ [-> _]]. auto.
Qed.

Lemma leaf_good_pmass e d : dist_ok d -> evset_ok d (e (dvar d)) -> cap_ok d ->
  leaf_good (fun d => leaf_cond d (e (dvar d))) (fun d => Fin (pmass d (e (dvar d)))) dist_vars (leaf_on e) d.
Proof.
  intros Hok He Hc. apply leaf_good_gen; auto. intros q [H1 [H2 [H3 H4]]]. unfold leaf_on. rewrite H2. auto.
Qed.

Lemma pmass_nonneg d A : dist_ok d -> evset_ok d A -> cap_ok d -> 0 <= pmass d A.
Proof. intros H1 H2 H3. destruct (leaf_cond_spec d A H1 H2 H3) as [[H _]|[[H _]|[H _]]]; lra. Qed.

Lemma part_mass_proper d A : is_cont d -> dist_ok d -> interval_ok A ->
  (forall j, In j (support_inter d A) -> is_singleton j = false) -> Rsum (map (part_mass d) (support_inter d A)) = probR d (EInt A).
Proof.
  intros Hc Hok HA Hs. destruct (support_inter_prob d A Hc Hok HA) as [_ [<- _]]. rewrite probR_measure by auto. unfold measure.
  apply Rsum_ext. intros j Hj. unfold part_mass. rewrite Hs by auto. rewrite probR_measure by auto. unfold measure. simpl. lra.
Qed.

Lemma pmass_prob d A : dist_ok d -> evset_ok d A -> no_points d A -> pmass d A = probR d A.
Proof.
  intros Hok HA Hn. destruct d as [v i|v loc c|v mu s|v i mu s|v p|v p], A as [A|L]; simpl in HA; try tauto; try reflexivity.
  - apply part_mass_proper; simpl; tauto.
  - simpl in Hn. subst c. simpl. ring.
  - apply part_mass_proper; simpl; tauto.
  - apply part_mass_proper; simpl; tauto.
Qed.

(** Wherever the event has positive probability, conditioning returns something positive. *)
Lemma measure_pos_part F J : 0 < measure F J -> exists j, In j J /\ is_singleton j = false.
Proof.
  unfold measure. induction J as [|j J IH]; simpl; [lra|]. intros H. destruct (is_singleton j) eqn:E; [|exists j; auto].
  assert (E0 : delta F j = 0).
  { unfold delta. unfold is_singleton in E. destruct (lo j) as [| |a|]; try discriminate. destruct (hi j) as [| |b|]; try discriminate.
    destruct (Reqb_spec a b); [subst; ring|discriminate]. }
  destruct IH as [j' [A B]]; [lra|]. exists j'. auto.
Qed.


Lemma Rsum_map_ge {A} (f : A -> R) l x : (forall y, In y l -> 0 <= f y) -> In x l -> f x <= Rsum (map f l).
Proof.
  induction l as [|y l IH]; intros Hf Hin; [destruct Hin|]. simpl. assert (0 <= Rsum (map f l)).
  { apply Rsum_nonneg. apply Forall_map, Forall_forall. intros z Hz. apply Hf. now right. }
  destruct Hin as [->|Hin]; [lra|]. specialize (IH (fun z Hz => Hf z (or_intror Hz)) Hin). pose proof (Hf y (or_introl eq_refl)). lra.
Qed.

Lemma cont_pos d A : is_cont d -> dist_ok d -> evset_ok d (EInt A) -> 0 < probR d (EInt A) -> 0 < Rsum (map (part_mass d) (support_inter d A)).
Proof.
  intros Hc Hok HA Hp. assert (HA' : interval_ok A) by (destruct d; simpl in *; tauto).
  destruct (support_inter_prob d A Hc Hok HA') as [_ [HP _]]. rewrite <- HP, probR_measure in Hp by auto.
  apply measure_pos_part in Hp. destruct Hp as [j [Hj _]].
  assert (Hall : forall j, In j (support_inter d A) -> 0 < part_mass d j).
  { intros j' Hj'. destruct (cont_part d A j' Hc Hok HA Hj') as [q Hq]. tauto. }
  apply Rlt_le_trans with (part_mass d j); auto. apply Rsum_map_ge; auto. intros y Hy. apply Rlt_le. auto.
Qed.

Lemma pmass_pos d A : dist_ok d -> evset_ok d A -> cap_ok d -> 0 < probR d A -> 0 < pmass d A.
Proof.
  intros Hok HA Hc Hp. destruct d as [v i|v loc c|v mu s|v i mu s|v p|v p], A as [A|L]; simpl in HA; try tauto.
  all: try (exact Hp).
  - apply cont_pos; simpl; auto.
  - destruct Hc as [c' [-> Hc]]. simpl in *. apply Rmult_lt_0_compat; auto.
  - apply cont_pos; simpl; auto.
  - apply cont_pos; simpl; auto.
Qed.

Lemma semR_pos (val val' : dist -> R) t : all_leaves (fun d => 0 <= val d /\ 0 <= val' d /\ (0 < val d -> 0 < val' d)) t -> 0 < semR val t -> 0 < semR val' t.
Proof.
  induction t as [d|l IH|l IH] using pc_ind'; intros Hl Hp.
  - simpl in *. tauto.
  - simpl in *. apply fold_and_Forall in Hl. rewrite Forall_forall in *.
    assert (H0 : forall wt, In wt l -> 0 <= semR val (snd wt) /\ 0 <= semR val' (snd wt)).
    { intros wt Hin. split; apply semR_nonneg; (eapply all_leaves_impl; [|exact (Hl wt Hin)]); simpl; tauto. }
    assert (Hex : exists wt, In wt l /\ 0 < wexp (fst wt) * semR val (snd wt)).
    { clear - Hp H0. induction l as [|wt l IH]; simpl in Hp; [lra|].
      destruct (Rlt_dec 0 (wexp (fst wt) * semR val (snd wt))) as [H|H]; [exists wt; simpl; auto|].
      destruct IH as [x [Hx H']]; [lra|intros; apply H0; now right|]. exists x. simpl. auto. }
    destruct Hex as [wt [Hin Hwt]]. assert (Hw := wexp_nonneg (fst wt)). destruct (H0 wt Hin) as [A B].
    assert (0 < wexp (fst wt)) by (destruct Hw as [|E]; [auto|rewrite <- E in Hwt; lra]).
    assert (0 < semR val (snd wt)) by (destruct A as [|E]; [auto|rewrite <- E in Hwt; lra]).
    apply Rlt_le_trans with (wexp (fst wt) * semR val' (snd wt)); [apply Rmult_lt_0_compat; auto|].
    apply (Rsum_map_ge (fun wt => wexp (fst wt) * semR val' (snd wt))); auto.
    intros y Hy. apply Rmult_le_pos; [apply wexp_nonneg|apply H0; auto].
  - simpl in *. apply fold_and_Forall in Hl. revert Hl Hp. induction IH as [|t l H _ IHl]; simpl; [lra|]. intros Hl Hp. inversion Hl as [|? ? Hl1 Hl2]; subst.
    assert (N1 : 0 <= semR val t) by (apply semR_nonneg; eapply all_leaves_impl; [|exact Hl1]; simpl; tauto).
    assert (N2 : 0 <= Rprod (map (semR val) l)).
    { apply Rprod_nonneg. apply Forall_map. eapply Forall_impl; [|exact Hl2]. intros t' Ht'. apply semR_nonneg. eapply all_leaves_impl; [|exact Ht']. simpl. tauto. }
    apply Rmult_lt_0_compat; [apply H|apply IHl]; auto.
    + destruct N1 as [|E]; [auto|rewrite <- E in Hp; lra].
    + destruct N2 as [|E]; [auto|rewrite <- E in Hp; lra].
Qed.

(** ** C08 *)

(** Conditioning on the simple event [e] in any history returns the probability of [e], and None iff that is 0. *)
Definition conditional_returns (e : sevent) (g : graph dist) (p : R) : Prop :=
  forall st, exists res lp, conditional_on e g st = Some (res, lp) /\ nexp lp = Fin p /\ (res = None <-> p = 0).

Definition C08_full : Prop := forall e g r t, valid_tree g r t -> event_ok t e -> exists p, answers g e p /\ conditional_returns e g p.

(** What conditioning returns for every event, isolated points included: the same evaluation, with the density
    in place of the probability at each isolated point and the density cap as the mass of a Dirac leaf. *)
Theorem C08_returned_number_partial e g r t : valid_tree g r t -> fin_sums t -> event_ok t e -> all_leaves cap_ok t ->
  conditional_returns e g (semR (fun d => pmass d (e (dvar d))) t).
Proof.
  intros [T L U N S Dc O] F He Hc st. assert (H : tree_circuit g r t) by (constructor; auto).
  assert (Hg : all_leaves (leaf_good (fun d => leaf_cond d (e (dvar d))) (fun d => Fin (pmass d (e (dvar d)))) dist_vars (leaf_on e)) t).
  { eapply all_leaves_impl; [|exact (all_leaves_and _ _ _ O (all_leaves_and _ _ _ He Hc))]. simpl. intros d [A [B C]]. now apply leaf_good_pmass. }
  pose proof (semN_semR (fun d => pmass d (e (dvar d))) t (fin_ok _ F)) as ES.
  destruct (conditional_tree _ _ dist_vars _ g r t st H Hg S Dc) as [[Z E]|[Z [g' [r' [t' [lp [E [E1 _]]]]]]]]; rewrite ES in Z.
  - exists None, NInf. split; auto. injection Z as Z. rewrite Z. cbn. tauto.
  - exists (Some g'), lp. split; auto. rewrite ES in E1. split; auto. split; [discriminate|]. intros E0. exfalso. apply Z. now rewrite E0.
Qed.

(** Proved part: simple events, valid trees with finite log weights, events without isolated points of the continuous
    leaves, Dirac leaves with density cap 1.  Missing: isolated points and other density caps, where the claim is false;
    events of several simple sets; circuits with shared units. *)
Theorem C08_conditional_probability_partial e g r t : valid_tree g r t -> fin_sums t -> event_ok t e ->
  all_leaves (fun d => no_points d (e (dvar d))) t -> answers g e (prob_of e t) /\ conditional_returns e g (prob_of e t).
Proof.
  intros V F He Hn. pose proof V as [T L U N S Dc O]. assert (H : tree_circuit g r t) by (constructor; auto). split.
  - apply answers_semR; auto; [eapply tree_layered; eauto|now apply fin_ok].
  - replace (prob_of e t) with (semR (fun d => pmass d (e (dvar d))) t).
    + eapply C08_returned_number_partial; eauto. eapply all_leaves_impl; [|exact (all_leaves_and _ _ _ O Hn)]. simpl.
      intros [v i|v loc c|v mu s|v i mu s|v p|v p] [_ A]; simpl in *; auto. exists 1. split; [auto|lra].
    + unfold prob_of. apply semR_ext. eapply all_leaves_impl; [|exact (all_leaves_and _ _ _ O (all_leaves_and _ _ _ He Hn))]. simpl.
      intros d [A [B C]]. now apply pmass_prob.
Qed.

(** ** C10 *)

(** Conditioning answers a normalised circuit that gives the event probability 1. *)
Definition conditional_on_event (e : sevent) (g : graph dist) : Prop :=
  forall st, exists q rq tq lp, conditional_on e g st = Some (Some q, lp) /\ valid_tree q rq tq /\ answers q e 1.

Definition C10_full : Prop := forall e g r t p, valid_tree g r t -> event_ok t e -> answers g e p -> 0 < p -> conditional_on_event e g.

(** Proved part: valid trees of any size with finite log weights and Dirac leaves with finite density caps; isolated
    points are included.  Missing: infinite log weights and density caps. *)
Theorem C10_concentrated_partial e g r t p : valid_tree g r t -> fin_sums t -> all_leaves cap_ok t -> event_ok t e ->
  answers g e p -> 0 < p -> conditional_on_event e g.
Proof.
  intros V F Hc He Ha Hp st. pose proof V as [T L U N S Dc O]. assert (H : tree_circuit g r t) by (constructor; auto).
  assert (Ep : p = prob_of e t).
  { assert (Ha' : answers g e (prob_of e t)) by (apply answers_semR; auto; [eapply tree_layered; eauto|now apply fin_ok]).
    destruct (Ha st) as [s1 E1], (Ha' st) as [s2 E2]. rewrite E1 in E2. now injection E2. }
  assert (Hg : all_leaves (leaf_good (fun d => leaf_cond d (e (dvar d))) (fun d => Fin (pmass d (e (dvar d)))) dist_vars (leaf_on e)) t).
  { eapply all_leaves_impl; [|exact (all_leaves_and _ _ _ O (all_leaves_and _ _ _ He Hc))]. simpl. intros d [A [B C]]. now apply leaf_good_pmass. }
  assert (Hpos : 0 < semR (fun d => pmass d (e (dvar d))) t).
  { apply semR_pos with (val := fun d => probR d (e (dvar d))); [|unfold prob_of in Ep; lra].
    eapply all_leaves_impl; [|exact (all_leaves_and _ _ _ O (all_leaves_and _ _ _ He Hc))]. simpl. intros d [A [B C]].
    split; [now apply probR_nonneg|]. split; [now apply pmass_nonneg|]. now apply pmass_pos. }
  pose proof (semN_semR (fun d => pmass d (e (dvar d))) t (fin_ok _ F)) as ES.
  destruct (conditional_tree _ _ dist_vars _ g r t st H Hg S Dc) as [[Z E]|[Z [q [rq [tq [lp [E [E1 [Hq [Nq [Oq [Sq [Dq _]]]]]]]]]]]]]; rewrite ES in Z.
  - injection Z as Z. lra.
  - exists q, rq, tq, lp. split; auto. pose proof Hq as [Tq Lq Uq Fq]. split.
    + constructor; auto. eapply all_leaves_impl; [|exact Oq]. unfold leaf_on. tauto.
    + replace 1 with (semR (fun d => probR d (e (dvar d))) tq).
      * apply answers_semR; [eapply tree_layered; eauto|now apply fin_ok| |]; (eapply all_leaves_impl; [|exact Oq]); unfold leaf_on; tauto.
      * apply semR_one; auto. eapply all_leaves_impl; [|exact Oq]. unfold leaf_on. tauto.
Qed.

(** ** C09 *)

(** [c] is the intersection of [e] and [a] on the variables of the circuit; it may be empty. *)
Definition meet (t : pc dist) (c e a : sevent) : Prop :=
  all_leaves (fun d => evset_wf d (c (dvar d)) /\ forall x, in_evset (c (dvar d)) x = in_evset (e (dvar d)) x && in_evset (a (dvar d)) x) t.

(** Conditioning on [e] answers a circuit that gives every event [a] the probability P(a and e) / P(e). *)
Definition follows_bayes (e : sevent) (g : graph dist) (t : pc dist) : Prop :=
  forall st, exists q lp, conditional_on e g st = Some (Some q, lp) /\
    forall a c, event_ok t a -> meet t c e a -> answers q a (prob_of c t / prob_of e t).

Definition C09_full : Prop := forall e g r t, valid_tree g r t -> event_ok t e -> 0 < prob_of e t -> follows_bayes e g t.

(** The event meets the support of a continuous leaf in a single interval. *)
Definition one_piece (d : dist) (A : evset) : Prop :=
  match d, A with
  | DUnif _ _, EInt A | DGauss _ _ _, EInt A | DTGauss _ _ _ _, EInt A => (length (support_inter d A) <= 1)%nat
  | _, _ => True
  end.

Lemma no_points_cap d A : no_points d A -> cap_ok d.
Proof. destruct d as [v i|v loc c|v mu s|v i mu s|v p|v p], A; simpl; auto; intros ->; exists 1; split; auto; lra. Qed.

Lemma no_points_good (Q : dist -> Prop) e d : dist_ok d -> evset_ok d (e (dvar d)) -> no_points d (e (dvar d)) ->
  (forall q, on_event d (e (dvar d)) q -> Q q) ->
  leaf_good (fun d => leaf_cond d (e (dvar d))) (fun d => Fin (probR d (e (dvar d)))) dist_vars Q d.
Proof.
  intros H1 H2 H3 H4. pose proof (leaf_good_gen Q e d H1 H2 (no_points_cap _ _ H3) H4) as H. unfold leaf_good in *.
  now rewrite <- (pmass_prob _ _ H1 H2 H3).
Qed.

Lemma all_sub_impl (P Q : pc dist -> Prop) t : (forall t, fin_sums t -> P t -> Q t) -> fin_sums t -> all_sub P t -> all_sub Q t.
Proof.
  intros HPQ. unfold fin_sums. induction t as [d|l IH|l IH] using pc_ind'; intros F; simpl.
  - intros [H _]. split; [apply HPQ; auto|auto].
  - intros [H HF]. split; [apply HPQ; auto|]. destruct F as [_ F]. apply fold_and_Forall in F, HF. apply fold_and_Forall. rewrite Forall_forall in *. auto.
  - intros [H HF]. split; [apply HPQ; auto|]. simpl in F. apply fold_and_Forall in F, HF. apply fold_and_Forall. rewrite Forall_forall in *. auto.
Qed.

(** The conditioned circuit averages the conditioned leaves with the old weights. *)
Lemma conditional_average e g r t st a c : valid_tree g r t -> fin_sums t -> event_ok t e -> all_leaves (fun d => no_points d (e (dvar d))) t ->
  all_leaves (fun d => one_piece d (e (dvar d))) t -> all_sub (fun t => prob_of e t <> 0) t -> event_ok t a -> meet t c e a ->
  exists q lp, conditional_on e g st = Some (Some q, lp) /\
    answers q a (semR (fun d => probR d (c (dvar d)) / probR d (e (dvar d))) t).
Proof.
  intros [T L U N S Dc O] F He Hn H1 Hs Ha Hm. assert (H : tree_circuit g r t) by (constructor; auto).
  set (Q := fun q => dist_ok q /\ evset_ok q (a (dvar q))).
  assert (Hg : all_leaves (leaf_good (fun d => leaf_cond d (e (dvar d))) (fun d => Fin (probR d (e (dvar d)))) dist_vars Q) t).
  { eapply all_leaves_impl; [|exact (all_leaves_and _ _ _ O (all_leaves_and _ _ _ He (all_leaves_and _ _ _ Hn Ha)))]. simpl. intros d [A [B [C E]]].
    apply no_points_good; auto. intros q [Q1 [Q2 [Q3 _]]]. split; auto. rewrite Q2. auto. }
  assert (Hs' : all_sub (fun t => semN (fun d => Fin (probR d (e (dvar d)))) t <> Fin 0) t).
  { revert Hs. apply all_sub_impl; auto. intros s Fs P. rewrite semN_semR by now apply fin_ok. intros E. injection E as E. auto. }
  assert (Hl : all_leaves (fun d => probR d (e (dvar d)) <> 0) t).
  { clear - Hs. induction t as [d|l IH|l IH] using pc_ind'; [apply Hs| |]; destruct Hs as [_ Hs]; apply fold_and_Forall in Hs; simpl; apply fold_and_Forall;
      rewrite Forall_forall in *; auto. }
  set (gq := fun d => clip (Fin (probR d (c (dvar d)) / probR d (e (dvar d))))).
  set (vq := fun d => Fin (probR d (a (dvar d)))).
  assert (Hb : all_leaves (fun d => exists d' lp, leaf_cond d (e (dvar d)) = Some (LOne d' lp) /\ vq d' = gq d /\ gq d = Fin (probR d (c (dvar d)) / probR d (e (dvar d)))) t).
  { eapply all_leaves_impl; [|exact (all_leaves_and _ _ _ O (all_leaves_and _ _ _ He (all_leaves_and _ _ _ Hn (all_leaves_and _ _ _ H1
      (all_leaves_and _ _ _ Ha (all_leaves_and _ _ _ Hm Hl))))))]. simpl. intros d [A [B [C [P [E [[M1 M2] Z]]]]]].
    pose proof (pmass_prob _ _ A B C) as EP.
    destruct (leaf_cond_spec d (e (dvar d)) A B (no_points_cap _ _ C)) as [[K1 _]|[[K1 [q [lp [K2 [K3 [K4 K5]]]]]]|[K1 [js [l [lp [K2 [K3 [K4 [Kc [K5 K6]]]]]]]]]]].
    - exfalso. apply Z. lra.
    - exists q, lp. split; auto. destruct (K5 C) as [B1 [B2 [B3 B4]]]. assert (Ev : probR q (a (dvar d)) = probR d (c (dvar d)) / probR d (e (dvar d))) by (apply B4; auto).
      assert (0 <= probR q (a (dvar d))) by (apply probR_nonneg; auto).
      unfold vq, gq, clip. rewrite B2, <- Ev. destruct (Rle_dec 0 (probR q (a (dvar d)))); [auto|lra].
    - exfalso. rewrite K2 in *. destruct d; simpl in P, K5, Kc; try lia; tauto. }
  destruct (conditional_keeps (fun d => leaf_cond d (e (dvar d))) _ dist_vars Q vq gq g r t st H Hg S Dc N) as [q [rq [tq [lp [E [Hq Es]]]]]].
  - intros d. apply clip_nonneg.
  - exact Hs'.
  - eapply all_leaves_impl; [|exact Hb]. simpl. intros d [d' [lp [A1 [A2 _]]]]. eauto.
  - exists q, lp. split; [exact E|].
    destruct (conditional_tree _ _ dist_vars _ g r t st H Hg S Dc) as [[Z _]|[_ [q' [rq' [tq' [lp' [E' [_ [Hq' [_ [Oq _]]]]]]]]]]].
    { exfalso. now apply (all_sub_here _ _ Hs'). }
    rewrite E in E'. injection E' as <- <-.
    assert (rq' = rq) by (pose proof (tree_root _ _ (tc_tree _ _ _ Hq)); pose proof (tree_root _ _ (tc_tree _ _ _ Hq')); congruence). subst rq'.
    assert (tq' = tq) by (eapply unfolds_det; [apply Hq'|apply Hq]). subst tq'.
    assert (EN : semN gq t = semN (fun d => Fin (probR d (c (dvar d)) / probR d (e (dvar d)))) t).
    { apply semN_ext. eapply all_leaves_impl; [|exact Hb]. simpl. intros d [d' [lp0 [_ [_ A]]]]. exact A. }
    rewrite EN in Es. unfold vq in Es. rewrite !semN_semR in Es; [|now apply fin_ok|apply fin_ok, Hq]. injection Es as <-.
    apply answers_semR; [eapply tree_layered; eauto|apply fin_ok, Hq| |]; (eapply all_leaves_impl; [|exact Oq]); unfold Q; tauto.
Qed.

(** Proved part: valid trees with finite log weights in which, at every sum unit, the children agree on the probability of
    the event (in particular circuits without sum units), and events that meet every continuous leaf's support in a single
    proper interval.  Missing: sum units whose children have different probabilities, composite intervals and isolated
    points, where the claim is false; events of several simple sets. *)
Theorem C09_bayes_partial e g r t : valid_tree g r t -> fin_sums t -> event_ok t e -> 0 < prob_of e t ->
  all_leaves (fun d => no_points d (e (dvar d))) t -> all_leaves (fun d => one_piece d (e (dvar d))) t ->
  even (fun d => probR d (e (dvar d))) t -> follows_bayes e g t.
Proof.
  intros V F He Hp Hn H1 Hev st. pose proof (vt_norm _ _ _ V) as N.
  assert (Hs : all_sub (fun t => prob_of e t <> 0) t) by (apply even_pos; auto; unfold prob_of in Hp; lra).
  pose proof (even_bayes (fun d => probR d (e (dvar d)))) as HB.
  destruct (C08_conditional_probability_partial e g r t V F He Hn) as [_ HR]. destruct (HR st) as [[q|] [lp [E [_ Hz]]]]; [|destruct Hz as [Hz _]; specialize (Hz eq_refl); lra].
  exists q, lp. split; auto. intros a c Ha Hm.
  destruct (conditional_average e g r t st a c V F He Hn H1 Hs Ha Hm) as [q' [lp' [E' A]]]. rewrite E in E'. injection E' as <- <-.
  replace (prob_of c t / prob_of e t) with (semR (fun d => probR d (c (dvar d)) / probR d (e (dvar d))) t); auto.
  specialize (HB (fun d => probR d (c (dvar d))) t Hev N Hs). unfold prob_of in *. rewrite <- HB. field. lra.
Qed.

(** ** Where the claims fail *)

Lemma answers_unique g e p p' : answers g e p -> answers g e p' -> p = p'.
Proof. intros H H'. destruct (H empty_store) as [s E], (H' empty_store) as [s' E']. rewrite E in E'. now injection E'. Qed.

Ltac bounds := unfold sint_ok, iclosed, isingleton; cbn; repeat split; try discriminate; try (left; lra); try (right; eauto; fail).

Lemma interval_one i : sint_ok i -> interval_ok [i] /\ [i] <> [].
Proof.
  intros H. split; [|discriminate]. split; [constructor; [auto|constructor]|]. cbn. split; [intros j []|exact I].
Qed.

Lemma leaf_valid d : dist_ok d -> valid_tree (leaf_circuit d) 0%nat (PLeaf d).
Proof.
  intros H. destruct (leaf_layered d) as [W [L [r [Er [_ U]]]]]. cbn in Er. injection Er as <-. constructor; auto; try (cbn; auto; fail).
  - split; auto. split; [exists (fun u => u); intros e []|]. cbn. split; [auto|split; [constructor|split; [intuition|auto]]].
Qed.

(** Conditioning on an isolated point answers a density and a circuit although the event has probability 0. *)
Definition unit_uniform : dist := DUnif 0 (iclosed 0 1).
Definition a_point : sevent := fun _ => EInt [isingleton (1/2)].

Lemma unit_uniform_ok : dist_ok unit_uniform.
Proof. exists 0, 1. cbn. repeat split; auto. lra. Qed.

Theorem C08_conditional_probability_refuted : ~ C08_full.
Proof.
  intros H. assert (He : event_ok (PLeaf unit_uniform) a_point) by (cbn; apply interval_one; bounds).
  destruct (H a_point _ _ _ (leaf_valid _ unit_uniform_ok) He) as [p [Hp Hc]].
  pose proof (C08_returned_number_partial a_point _ _ _ (leaf_valid _ unit_uniform_ok) I He I) as Hr.
  destruct (Hc empty_store) as [res [lp [E1 [E2 _]]]], (Hr empty_store) as [res' [lp' [F1 [F2 _]]]].
  rewrite E1 in F1. injection F1 as <- <-. rewrite E2 in F2. apply (f_equal (fun n => match n with Fin x => x | _ => 0 end)) in F2. cbv beta iota in F2.
  assert (Ep : p = prob_of a_point (PLeaf unit_uniform)).
  { eapply answers_unique; [exact Hp|]. apply answers_semR; auto; [apply leaf_layered|exact I|apply unit_uniform_ok]. }
  assert (E0 : prob_of a_point (PLeaf unit_uniform) = 0) by (unfold prob_of, a_point; cbn; unfold measure, delta; cbn; lra).
  assert (E : semR (fun d => pmass d (a_point (dvar d))) (PLeaf unit_uniform) = 1); [|rewrite E in F2; rewrite E0 in Ep; lra].
  unfold a_point. cbn. unfold support_inter, interval_inter. cbn. unfold sint_inter, nmax_lo, nmin_hi. cbn.
  rb; try lra. cbn. unfold sint_empty. cbn. rb; try lra. cbn. unfold part_mass, is_singleton. cbn. rb; try lra. cbn.
  unfold density. cbn. unfold in_sint, above, below. cbn. rb; try lra. cbn. 
  destruct (total_order_T (1 + - 0) 0) as [[?|?]|?]; try lra. cbn. replace (1 + - 0) with 1 by ring. rewrite ln_1, Ropp_0, exp_0. ring.
Qed.

(** A mixture of two uniform leaves: conditioning on [0, 2] keeps the weights 1/2 and 1/2 instead of 2/3 and 1/3. *)
Definition two_uniforms_tree : pc dist := PSum [(Fin (ln (1/2)), PLeaf (DUnif 0 (iclosed 0 1))); (Fin (ln (1/2)), PLeaf (DUnif 0 (iclosed 0 4)))].
Definition two_uniforms : graph dist :=
  mkGraph [(0, USum); (1, ULeaf (DUnif 0 (iclosed 0%R 1%R))); (2, ULeaf (DUnif 0 (iclosed 0%R 4%R)))]%nat
    [mkEdge 0 1 (Some (Fin (ln (1/2)))); mkEdge 0 2 (Some (Fin (ln (1/2))))]%nat.
Definition up_to (b : R) : sevent := fun _ => EInt [iclosed 0 b].

Lemma two_uniforms_valid : valid_tree two_uniforms 0%nat two_uniforms_tree /\ fin_sums two_uniforms_tree.
Proof.
  split; [constructor|cbn; repeat split; repeat constructor].
  - split; [concrete_wf|]. split; [exists (fun u => 5 - u)%nat; on_edges|].
    split; [cbn; tauto|]. split; [cbn; repeat constructor; cbn; intuition lia|].
    split; [|cbn; intuition lia]. cbn. intros u H Hn. repeat (destruct H as [<-|H]; [tauto|]). tauto.
  - intros e d H. repeat destruct H as [<-|H]; cbn; try discriminate. destruct H.
  - unfold two_uniforms_tree. unf.
  - cbn. repeat split; try (repeat constructor). cbn. rewrite exp_ln by lra. lra.
  - cbn. repeat split; intuition.
  - cbn. tauto.
  - cbn. split; [exists 0, 1|split; [exists 0, 4|auto]]; cbn; repeat split; auto; lra.
Qed.

Lemma up_to_ok b : 0 < b -> event_ok two_uniforms_tree (up_to b).
Proof. intros H. assert (I : sint_ok (iclosed 0 b)) by (bounds; left; lra). cbn. split; [|split; [|auto]]; now apply interval_one. Qed.

Lemma uniform_up_to v a b : 0 < a -> 0 < b -> probR (DUnif v (iclosed 0 a)) (EInt [iclosed 0 b]) = Rmin 1 (b / a).
Proof.
  intros Ha Hb. cbn. unfold measure, delta. cbn. replace ((b - 0) / (a - 0)) with (b / a) by (field; lra).
  replace ((0 - 0) / (a - 0)) with 0 by (field; lra). assert (0 < b / a) by (apply Rmult_lt_0_compat; [auto|now apply Rinv_0_lt_compat]).
  rewrite (Rmax_right 0 (b / a)) by lra. rewrite (Rmax_left 0 0) by lra. rewrite (Rmin_right 1 0) by lra. ring.
Qed.

Lemma uniform_inter v a b : 0 < a -> 0 < b -> support_inter (DUnif v (iclosed 0 a)) [iclosed 0 b] = [iclosed 0 (Rmin a b)].
Proof.
  intros Ha Hb. unfold support_inter, interval_inter. cbn. unfold sint_inter, nmax_lo, nmin_hi. cbn. unfold Rmin, iclosed.
  rb; try lra; destruct (Rle_dec a b); try lra; cbn; unfold sint_empty; cbn; rb; try lra; cbn; repeat f_equal; lra.
Qed.

Lemma inter_proper v a b : 0 < a -> 0 < b -> no_points (DUnif v (iclosed 0 a)) (EInt [iclosed 0 b]) /\ one_piece (DUnif v (iclosed 0 a)) (EInt [iclosed 0 b]).
Proof.
  intros Ha Hb. unfold no_points, one_piece. rewrite uniform_inter by auto. split; [|cbn; lia]. intros j [<-|[]]. unfold is_singleton. cbn.
  assert (0 < Rmin a b) by (unfold Rmin; destruct (Rle_dec a b); lra). rb; auto. lra.
Qed.

Theorem C09_bayes_refuted : ~ C09_full.
Proof.
  intros H. destruct two_uniforms_valid as [V F].
  assert (E1 : forall b, 0 < b -> prob_of (up_to b) two_uniforms_tree = 1/2 * Rmin 1 b + 1/2 * Rmin 1 (b / 4)).
  { intros b Hb. unfold prob_of, two_uniforms_tree, up_to. cbn [semR map Rsum fold_right fst snd]. rewrite !uniform_up_to by lra.
    cbn [wexp]. rewrite exp_ln by lra. replace (b / 1) with b by field. ring. }
  assert (P2 : prob_of (up_to 2) two_uniforms_tree = 3/4).
  { rewrite E1 by lra. rewrite Rmin_left, Rmin_right by lra. lra. }
  assert (P1 : prob_of (up_to 1) two_uniforms_tree = 5/8).
  { rewrite E1 by lra. rewrite Rmin_left, Rmin_right by lra. lra. }
  assert (Hm : meet two_uniforms_tree (up_to 1) (up_to 2) (up_to 1)).
  { assert (A : interval_ok [iclosed 0 1]) by (apply interval_one; bounds).
    assert (B : forall x, in_interval [iclosed 0 1] x = in_interval [iclosed 0 2] x && in_interval [iclosed 0 1] x).
    { intros x. unfold in_interval, in_sint, above, below. cbn. rb; auto; lra. }
    cbn. auto. }
  destruct (H (up_to 2) _ _ _ V (up_to_ok 2 ltac:(lra)) ltac:(lra) empty_store) as [q [lp [E A]]].
  specialize (A (up_to 1) (up_to 1) (up_to_ok 1 ltac:(lra)) Hm).
  destruct (conditional_average (up_to 2) _ _ _ empty_store (up_to 1) (up_to 1) V F) as [q' [lp' [E' A']]]; auto.
  - apply up_to_ok. lra.
  - split; [|split; [|exact I]]; apply inter_proper; lra.
  - split; [|split; [|exact I]]; apply inter_proper; lra.
  - assert (L1 : probR (DUnif 0 (iclosed 0 1)) (up_to 2 0%nat) <> 0) by (unfold up_to; rewrite uniform_up_to, Rmin_left by lra; lra).
    assert (L2 : probR (DUnif 0 (iclosed 0 4)) (up_to 2 0%nat) <> 0) by (unfold up_to; rewrite uniform_up_to, Rmin_right by lra; lra).
    split; [intros Z; change (prob_of (up_to 2) two_uniforms_tree = 0) in Z; lra|]. split; [|split; [|exact I]]; (split; [assumption|exact I]).
  - apply up_to_ok. lra.
  - rewrite E in E'. injection E' as <- <-. pose proof (answers_unique _ _ _ _ A A') as EA. rewrite P1, P2 in EA.
    revert EA. unfold two_uniforms_tree, up_to. cbn [semR map Rsum fold_right fst snd dvar]. rewrite !uniform_up_to by lra.
    rewrite (Rmin_left 1 (1 / 1)), (Rmin_left 1 (2 / 1)), (Rmin_right 1 (1 / 4)), (Rmin_right 1 (2 / 4)) by lra. cbn [wexp]. rewrite exp_ln by lra. lra.
Qed.

(** ** Concrete cases *)

(** The mixture above, conditioned on [0, 2]: the number is right and the result is concentrated on [0, 2]. *)
Example two_uniforms_conditional : conditional_returns (up_to 2) two_uniforms (prob_of (up_to 2) two_uniforms_tree) /\
  conditional_on_event (up_to 2) two_uniforms.
Proof.
  destruct two_uniforms_valid as [V F]. assert (He := up_to_ok 2 ltac:(lra)). split.
  - eapply C08_conditional_probability_partial; eauto. split; [|split; [|exact I]]; apply inter_proper; lra.
  - eapply C10_concentrated_partial with (p := prob_of (up_to 2) two_uniforms_tree); eauto; [cbn; auto| |].
    + apply answers_semR; auto; [eapply tree_layered; constructor; try apply V; auto|now apply fin_ok|apply V].
    + unfold prob_of, two_uniforms_tree, up_to. cbn [semR map Rsum fold_right fst snd dvar]. rewrite !uniform_up_to by lra.
      cbn [wexp]. rewrite exp_ln, Rmin_left, Rmin_right by lra. lra.
Qed.

(** A mixture of uniform leaves on [0, 2] and [2, 4]: both give [1, 3] the probability 1/2. *)
Definition neighbours_tree : pc dist := PSum [(Fin (ln (1/4)), PLeaf (DUnif 0 (iclosed 0 2))); (Fin (ln (3/4)), PLeaf (DUnif 0 (iclosed 2 4)))].
Definition neighbours : graph dist :=
  mkGraph [(0, USum); (1, ULeaf (DUnif 0 (iclosed 0%R 2%R))); (2, ULeaf (DUnif 0 (iclosed 2%R 4%R)))]%nat
    [mkEdge 0 1 (Some (Fin (ln (1/4)))); mkEdge 0 2 (Some (Fin (ln (3/4))))]%nat.
Definition middle : sevent := fun _ => EInt [iclosed 1 3].

Example neighbours_bayes : follows_bayes middle neighbours neighbours_tree.
Proof.
  assert (V : valid_tree neighbours 0%nat neighbours_tree).
  { constructor.
    - split; [concrete_wf|]. split; [exists (fun u => 5 - u)%nat; on_edges|].
      split; [cbn; tauto|]. split; [cbn; repeat constructor; cbn; intuition lia|].
      split; [|cbn; intuition lia]. cbn. intros u H Hn. repeat (destruct H as [<-|H]; [tauto|]). tauto.
    - intros e d H. repeat destruct H as [<-|H]; cbn; try discriminate. destruct H.
    - unfold neighbours_tree. unf.
    - cbn. repeat split; try (repeat constructor). cbn. rewrite !exp_ln by lra. lra.
    - cbn. repeat split; intuition.
    - cbn. tauto.
    - cbn. split; [exists 0, 2|split; [exists 2, 4|auto]]; cbn; repeat split; auto; lra. }
  assert (P1 : probR (DUnif 0 (iclosed 0 2)) (EInt [iclosed 1 3]) = 1/2).
  { cbn. unfold measure, delta. cbn. rewrite (Rmax_right 0 ((3 - 0) / (2 - 0))), (Rmax_right 0 ((1 - 0) / (2 - 0))), Rmin_left, Rmin_right by lra. lra. }
  assert (P2 : probR (DUnif 0 (iclosed 2 4)) (EInt [iclosed 1 3]) = 1/2).
  { cbn. unfold measure, delta. cbn. rewrite (Rmax_right 0 ((3 - 2) / (4 - 2))), (Rmax_left 0 ((1 - 2) / (4 - 2))), !Rmin_right by lra. lra. }
  assert (S1 : support_inter (DUnif 0 (iclosed 0 2)) [iclosed 1 3] = [iclosed 1 2]).
  { unfold support_inter, interval_inter. cbn. unfold sint_inter, nmax_lo, nmin_hi. cbn. rb; try lra. cbn. unfold sint_empty. cbn. rb; try lra. reflexivity. }
  assert (S2 : support_inter (DUnif 0 (iclosed 2 4)) [iclosed 1 3] = [iclosed 2 3]).
  { unfold support_inter, interval_inter. cbn. unfold sint_inter, nmax_lo, nmin_hi. cbn. rb; try lra. cbn. unfold sint_empty. cbn. rb; try lra. reflexivity. }
  assert (H1 : forall a, is_singleton (iclosed a (a + 1)) = false) by (intros a; unfold is_singleton; cbn; rb; auto; lra).
  assert (N1 : no_points (DUnif 0 (iclosed 0 2)) (EInt [iclosed 1 3])).
  { unfold no_points. rewrite S1. intros j [<-|[]]. replace 2 with (1 + 1) by ring. apply H1. }
  assert (N2 : no_points (DUnif 0 (iclosed 2 4)) (EInt [iclosed 1 3])).
  { unfold no_points. rewrite S2. intros j [<-|[]]. replace 3 with (2 + 1) by ring. apply H1. }
  assert (O1 : one_piece (DUnif 0 (iclosed 0 2)) (EInt [iclosed 1 3])) by (unfold one_piece; rewrite S1; cbn; lia).
  assert (O2 : one_piece (DUnif 0 (iclosed 2 4)) (EInt [iclosed 1 3])) by (unfold one_piece; rewrite S2; cbn; lia).
  eapply C09_bayes_partial; eauto.
  - cbn. repeat split; repeat constructor.
  - assert (I1 : sint_ok (iclosed 1 3)) by bounds. split; [|split; [|exact I]]; now apply interval_one.
  - unfold prob_of, neighbours_tree, middle. cbn [semR map Rsum fold_right fst snd dvar]. rewrite P1, P2. cbn [wexp]. rewrite !exp_ln by lra. lra.
  - exact (conj N1 (conj N2 I)).
  - exact (conj O1 (conj O2 I)).
  - split; [|cbn; auto]. exists (1/2). unfold middle. repeat constructor; assumption.
Qed.

Print Assumptions C08_returned_number_partial.
Print Assumptions C08_conditional_probability_partial.
Print Assumptions C08_conditional_probability_refuted.
Print Assumptions C09_bayes_partial.
Print Assumptions C09_bayes_refuted.
Print Assumptions C10_concentrated_partial.
(** With a log weight of minus infinity, simplification (as in [zero_marginal]) cuts the edge but keeps the child: the
    conditioned circuit has two roots and answers no query. *)
Definition both : sevent := fun _ => ESym [0%Z; 1%Z].

Lemma zero_conditional : exists q lp, conditional_on both zero_marginal empty_store = Some (Some q, lp) /\ root q = None.
Proof.
  unfold conditional_on. set (lc := fun d => leaf_cond d (both (dvar d))).
  assert (Hf : forall k, exists q, finish_discrete (DSym 0) [(k, 1)] = (Some q, Fin 0)).
  { intros k. unfold finish_discrete, vals. cbn [map snd Rsum fold_right]. destruct (Reqb_spec (1 + 0) 0); [lra|]. eexists. f_equal.
    unfold nlog. destruct (total_order_T (1 + 0) 0) as [[?|?]|?]; try lra. f_equal. replace (1 + 0) with 1 by ring. apply ln_1. }
  assert (L1 : exists q, lc (DSym 0 [(0%Z, 1)]) = Some (LOne q (Fin 0))).
  { destruct (Hf 0%Z) as [q Hq]. exists q. unfold lc, both, leaf_cond, discrete_cond. cbn [dvar]. unfold sym_cond_dict. cbn. rb; try lra. cbn. now rewrite Hq. }
  assert (L2 : exists q, lc (DSym 0 [(1%Z, 1)]) = Some (LOne q (Fin 0))).
  { destruct (Hf 1%Z) as [q Hq]. exists q. unfold lc, both, leaf_cond, discrete_cond. cbn [dvar]. unfold sym_cond_dict. cbn. rb; try lra. cbn. now rewrite Hq. }
  destruct L1 as [q1 L1], L2 as [q2 L2]. clearbody lc.
  assert (EL : logsumexp [nadd NInf (Fin 0); nadd (Fin 0) (Fin 0)] = Fin 0).
  { unfold logsumexp. cbn -[nlog]. rewrite ?Rplus_0_l, ?Rplus_0_r, exp_0. unfold nlog. destruct (total_order_T 1 0) as [[?|?]|?]; try lra. now rewrite ln_1. }
  unfold conditional_simple, conditional_finish. change (bottom_up zero_marginal) with (Some [1;2;0]%nat). cbn [foldM].
  unfold unit_conditional at 1. cbn [node_kind zero_marginal g_nodes find fst snd Nat.eqb]. unfold leaf_conditional. rewrite L1.
  unfold unit_conditional at 1. cbn. rewrite L2. unfold unit_conditional. cbn -[logsumexp nadd]. rewrite EL. cbn.
  eexists. eexists. split; reflexivity.
Qed.

Theorem C10_concentrated_refuted : ~ C10_full.
Proof.
  intros H. pose proof zero_marginal_valid as V.
  assert (He : event_ok zero_marginal_tree both) by (cbn; repeat split; repeat constructor; cbn; intuition discriminate).
  assert (Ha : answers zero_marginal both 1).
  { replace 1 with (prob_of both zero_marginal_tree).
    - apply answers_semR; auto; [|apply normalised_lw_ok, V|apply V]. split; [apply V|]. split; [apply V|]. exists 0%nat.
      split; [apply tree_root, V|]. split; [apply tree_graded, V|apply V].
    - apply semR_one; [apply V|]. cbn. unfold ind. cbn. repeat split; auto; rb; cbn; try lra. }
  destruct (H both _ _ _ 1 V He Ha ltac:(lra) empty_store) as [q [rq [tq [lp [E [Vq _]]]]]].
  destruct zero_conditional as [q' [lp' [E' R]]]. rewrite E in E'. injection E' as <- <-.
  pose proof (tree_root _ _ (vt_tree _ _ _ Vq)). congruence.
Qed.

Print Assumptions C10_concentrated_refuted.
