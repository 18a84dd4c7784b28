(** * LeafCond: conditioning one leaf of a circuit *)
From Coq Require Import List Arith Bool Lia Reals Lra ZArith.
From Verif Require Import Num Graph Interval GaussInt Dist DistFacts CondFacts PropertiesDist Conditional CondPass.
Import ListNotations.
Local Open Scope R_scope.

(** ** Intersections of intervals *)

Lemma sint_inter_ok i j : sint_ok i -> sint_ok j -> sint_empty (sint_inter i j) = false -> sint_ok (sint_inter i j).
Proof.
  destruct i as [l h a b], j as [l' h' a' b']. unfold sint_ok, sint_empty, sint_inter, nmax_lo, nmin_hi. simpl.
  intros [H1 [H2 [H3 [H4 H5]]]] [H1' [H2' [H3' [H4' H5']]]].
  destruct l as [| |l|], l' as [| |l'|]; try congruence;
  destruct h as [| |h|], h' as [| |h'|]; try congruence;
  repeat match goal with |- context [Rltb ?x ?y] => destruct (Rltb_spec x y) end; simpl; intros He;
  repeat split; try discriminate;
  repeat match goal with H : context [Rltb ?x ?y] |- _ => destruct (Rltb_spec x y) end; simpl in *;
  repeat match goal with H : context [Reqb ?x ?y] |- _ => destruct (Reqb_spec x y) end; simpl in *; try discriminate; auto.
  all: try (left; exact I).
  all: try (left; lra).
  all: right; subst; apply negb_false_iff, andb_true_iff in He; destruct He; eexists; repeat split; eauto.
  all: try (f_equal; lra).
Qed.

Lemma inter_single i A : interval_inter [i] A = filter (fun j => negb (sint_empty j)) (map (sint_inter i) A).
Proof. unfold interval_inter. simpl. now rewrite app_nil_r. Qed.

Lemma sint_inter_points i j x : sint_ok i -> sint_ok j -> in_sint (sint_inter i j) x = in_sint i x && in_sint j x.
Proof. intros [A [B [C [E _]]]] [A' [B' [C' [E' _]]]]. now apply sint_inter_spec. Qed.

Lemma inter_ok i A : sint_ok i -> interval_ok A -> interval_ok (interval_inter [i] A).
Proof.
  intros Hi [HA HD]. rewrite inter_single. split.
  - apply Forall_forall. intros j Hj. apply filter_In in Hj. destruct Hj as [Hj He]. apply in_map_iff in Hj. destruct Hj as [j' [<- Hj]].
    rewrite Forall_forall in HA. apply sint_inter_ok; auto. now apply negb_true_iff.
  - induction A as [|a A IH]; simpl; auto. inversion HA; subst. destruct HD as [HD1 HD2].
    assert (IH' := IH H2 HD2). destruct (sint_empty (sint_inter i a)) eqn:E; simpl; auto. split; auto.
    intros j Hj x [X1 X2]. apply filter_In in Hj. destruct Hj as [Hj _]. apply in_map_iff in Hj. destruct Hj as [j' [<- Hj]].
    rewrite Forall_forall in H2. rewrite sint_inter_points in X1, X2 by auto. apply andb_true_iff in X1, X2. apply (HD1 j' Hj x). tauto.
Qed.

Lemma sint_inter_inside i j : sint_ok i -> sint_ok j -> nle (lo i) (lo (sint_inter i j)) /\ nle (hi (sint_inter i j)) (hi i).
Proof.
  destruct i as [l h a b], j as [l' h' a' b']. unfold sint_ok, sint_inter, nmax_lo, nmin_hi, nle. simpl.
  intros [H1 [H2 [H3 [H4 _]]]] [H1' [H2' [H3' [H4' _]]]].
  destruct l as [| |l|], l' as [| |l'|]; try congruence; destruct h as [| |h|], h' as [| |h'|]; try congruence;
  repeat match goal with |- context [Rltb ?x ?y] => destruct (Rltb_spec x y) end; simpl; auto.
Qed.

Lemma nle_nlt_trans a b c : nle a b -> nlt b c -> nlt a c.
Proof. intros [->|H] H'; auto. eapply nlt_trans; eauto. Qed.

(** ** The support of a continuous distribution carries all of it *)

Lemma cont_support d : is_cont d -> dist_ok d -> exists i, support1 d = EInt [i] /\ sint_ok i /\ nlt (lo i) (hi i) /\
  (forall j, nle (lo i) (lo j) -> nle (hi j) (hi i) -> inside d j) /\ restricts (cdfR d) (cdfR d) i 1.
Proof.
  intros Hc Hok. destruct d as [v i|v l c|v mu s|v i mu s|v p|v p]; simpl in Hc; try tauto.
  - destruct Hok as [a [b [E1 [E2 Hab]]]]. exists i. split; [reflexivity|].
    assert (Hlt : nlt (lo i) (hi i)) by (rewrite E1, E2; exact Hab).
    split; [|split; [auto|split; [simpl; auto|]]].
    + unfold sint_ok. rewrite E1, E2. repeat split; try discriminate. left. simpl. auto.
    + intros x y Hxy. split; [intros; field|]. intros [H|H].
      * rewrite E1 in H. rewrite !(unif_cdf_left v i a b); auto. right. destruct H as [->|H]; auto. eapply nlt_trans; eauto.
      * rewrite E2 in H. rewrite !(unif_cdf_right v i a b); auto. right. eapply nle_nlt_trans; eauto.
  - exists ireals. split; [reflexivity|]. split; [|split; [exact I|split; [simpl; auto|]]].
    + unfold sint_ok, ireals. simpl. repeat split; try discriminate. auto.
    + intros x y Hxy. split; [intros; field|]. unfold nle, ireals. simpl.
      intros [[->|H]|[<-|H]]; [destruct x| destruct y | destruct y|destruct x]; simpl in *; tauto.
  - assert (Hok' := Hok). destruct Hok' as [Hs [H1 [H2 H3]]]. exists i. split; [reflexivity|]. split; [|split; [auto|split; [simpl; auto|]]].
    + unfold sint_ok. repeat split; auto; destruct (lo i), (hi i); simpl in H3; try tauto; discriminate.
    + intros x y Hxy. split; [intros; field|]. intros [H|H].
      * rewrite !(tg_cdf_left v i mu s); auto. right. destruct H as [->|H]; auto. eapply nlt_trans; eauto.
      * rewrite !(tg_cdf_right v i mu s); auto. right. eapply nle_nlt_trans; eauto.
Qed.

Lemma probR_measure d A : is_cont d -> probR d (EInt A) = measure (cdfR d) A.
Proof. destruct d; simpl; tauto. Qed.

Lemma support_inter_prob d A : is_cont d -> dist_ok d -> interval_ok A ->
  interval_ok (support_inter d A) /\ probR d (EInt (support_inter d A)) = probR d (EInt A) /\
  forall j, In j (support_inter d A) -> inside d j /\ (forall x, in_sint j x = true -> in_interval A x = true).
Proof.
  intros Hc Hok HA. destruct (cont_support d Hc Hok) as [i [E [Hi [Hlt [Hin HR]]]]]. unfold support_inter. rewrite E.
  assert (Ho := inter_ok i A Hi HA). split; [auto|split].
  - rewrite !probR_measure by auto. rewrite (measure_cond _ _ i 1 A (interval_inter [i] A) Hi HR HA Ho); [field|].
    intros x. rewrite in_interval_inter; [|constructor; auto|apply HA]. simpl. rewrite orb_false_r. apply andb_comm.
  - intros j Hj. rewrite inter_single in Hj. apply filter_In in Hj. destruct Hj as [Hj _]. apply in_map_iff in Hj.
    destruct Hj as [j' [<- Hj]]. destruct HA as [HA _]. rewrite Forall_forall in HA.
    split; [apply Hin; apply sint_inter_inside; auto|].
    intros x Hx. rewrite sint_inter_points in Hx by auto. apply andb_true_iff in Hx. apply existsb_exists. exists j'. tauto.
Qed.

(** ** What conditioning a leaf yields *)

(** Like [evset_ok], but possibly empty. *)
Definition evset_wf (d : dist) (A : evset) : Prop :=
  match d, A with
  | DSym _ _, ESym l => NoDup l
  | DSym _ _, _ => False
  | _, EInt A => interval_ok A
  | _, _ => False
  end.

(** [q] is [d] given [A], by Bayes' rule. *)
Definition bayes (d : dist) (A : evset) (q : dist) : Prop :=
  dist_ok q /\ dvar q = dvar d /\ (forall B, evset_ok d B -> evset_ok q B) /\
  forall B C, evset_ok d B -> evset_wf d C -> (forall x, in_evset C x = in_evset A x && in_evset B x) ->
    probR q B = probR d C / probR d A.

(** The event leaves no isolated point of a continuous distribution; Dirac leaves have density cap 1. *)
Definition no_points (d : dist) (A : evset) : Prop :=
  match d, A with
  | DDirac _ _ cap, _ => cap = Fin 1
  | DUnif _ _, EInt A | DGauss _ _ _, EInt A | DTGauss _ _ _ _, EInt A => forall j, In j (support_inter d A) -> is_singleton j = false
  | _, _ => True
  end.

Lemma not_singleton j : sint_ok j -> is_singleton j = false -> nlt (lo j) (hi j).
Proof.
  unfold is_singleton. intros [_ [_ [_ [_ [H|[a [-> [-> [-> ->]]]]]]]]]; auto. destruct (Reqb_spec a a); [discriminate|tauto].
Qed.

(** The density of a continuous distribution at a point, as the code computes it. *)
Definition density (d : dist) (x : R) : R := match nexp (ll1 d x) with Fin y => y | _ => 0 end.

(** The number that [log_conditional_from_simple_interval] returns (as an exponential): the probability of a proper
    interval, the density of a point. *)
Definition part_mass (d : dist) (j : sint) : R :=
  if is_singleton j then match lo j with Fin x => density d x | _ => 0 end else probR d (EInt [j]).

(** The number that conditioning a leaf returns. *)
Definition pmass (d : dist) (A : evset) : R :=
  match d, A with
  | DDirac _ loc cap, A => match cap with Fin c => c * ind (in_evset A loc) | _ => 0 end
  | DUnif _ _, EInt A | DGauss _ _ _, EInt A | DTGauss _ _ _ _, EInt A => Rsum (map (part_mass d) (support_inter d A))
  | _, _ => probR d A
  end.

(** Dirac leaves have a finite positive density cap. *)
Definition cap_ok (d : dist) : Prop := match d with DDirac _ _ cap => exists c, cap = Fin c /\ 0 < c | _ => True end.

(** [q] is a distribution of the same variable that gives [A] probability 1. *)
Definition on_event (d : dist) (A : evset) (q : dist) : Prop :=
  dist_ok q /\ dvar q = dvar d /\ (forall B, evset_ok d B -> evset_ok q B) /\ probR q A = 1.

Lemma gauss_logpdf_fin mu s x : 0 < s -> exists y, gauss_logpdf mu s x = Fin y.
Proof.
  intros Hs. unfold gauss_logpdf. destruct (Rlt_dec 0 s); [|tauto].
  assert (0 < phi ((x - mu) / s) / s) by (apply Rdiv_lt_0_compat; [apply phi_pos|auto]).
  simpl. destruct (total_order_T _ 0) as [[H'|H']|H']; try lra. eauto.
Qed.

Lemma density_pos d i x : is_cont d -> dist_ok d -> support1 d = EInt [i] -> in_sint i x = true ->
  ll1 d x = Fin (ln (density d x)) /\ 0 < density d x.
Proof.
  intros Hc Hok Hs Hx. enough (H : exists y, ll1 d x = Fin y).
  { destruct H as [y Hy]. unfold density. rewrite Hy. simpl. rewrite ln_exp. split; auto. apply exp_pos. }
  destruct d as [v j|v l c|v mu s|v j mu s|v p|v p]; simpl in Hc; try tauto; simpl in Hs; injection Hs as <-.
  - destruct Hok as [a [b [E1 [E2 Hab]]]]. cbn [ll1]. rewrite Hx, E1, E2. simpl. destruct (total_order_T _ 0) as [[H'|H']|H']; try lra. eexists; reflexivity.
  - apply gauss_logpdf_fin. exact Hok.
  - destruct Hok as [Hs' [H1 [H2 H3]]]. cbn [ll1]. rewrite Hx. destruct (gauss_logpdf_fin mu s x Hs') as [y ->].
    unfold tg_const. rewrite !gauss_cdf_R by auto. cbn [nsub nopp nadd].
    assert (L := gcdfR_strict mu s _ _ Hs' H3). cbn [nlog].
    destruct (total_order_T _ 0) as [[H'|H']|H']; try lra. simpl. eauto.
Qed.

Lemma cont_part d A j : is_cont d -> dist_ok d -> evset_ok d (EInt A) -> In j (support_inter d A) ->
  exists q, cond_simple_interval d j = Some (q, nlog (Fin (part_mass d j))) /\ 0 < part_mass d j /\ on_event d (EInt A) q /\
    (is_singleton j = false -> bayes d (EInt [j]) q).
Proof.
  intros Hc Hok HA0 Hj. assert (HA : interval_ok A) by (destruct d; simpl in *; tauto).
  destruct (support_inter_prob d A Hc Hok HA) as [[Ho _] [_ Hin]].
  destruct (Hin j Hj) as [Hi HjA]. rewrite Forall_forall in Ho. specialize (Ho j Hj). unfold part_mass. destruct (is_singleton j) eqn:Hs.
  - assert (Hx : exists x, lo j = Fin x /\ in_sint j x = true).
    { unfold is_singleton in Hs. unfold in_sint, above, below. destruct (lo j) as [| |x|]; try discriminate. destruct (hi j) as [| |y|]; try discriminate.
      exists x. split; auto. apply andb_true_iff in Hs. destruct Hs as [Hs ->]. apply andb_true_iff in Hs. destruct Hs as [Hs ->]. rb; auto; lra. }
    destruct Hx as [x [Ex Hx]]. destruct (cont_support d Hc Hok) as [i [Es [Hi' _]]].
    assert (Hix : in_sint i x = true).
    { unfold support_inter in Hj. rewrite Es, inter_single in Hj. apply filter_In in Hj. destruct Hj as [Hj _]. apply in_map_iff in Hj.
      destruct Hj as [j' [<- Hj]]. destruct HA as [HA _]. rewrite Forall_forall in HA. rewrite sint_inter_points in Hx by auto.
      apply andb_true_iff in Hx. tauto. }
    destruct (density_pos d i x Hc Hok Es Hix) as [El Hp].
    unfold cond_simple_interval. rewrite Hs, Ex. unfold cond_singleton. exists (DDirac (dvar d) x (nexp (ll1 d x))). split; [|split; [auto|split; [|discriminate]]].
    + rewrite El. do 3 f_equal. simpl. destruct (total_order_T _ 0) as [[H'|H']|H']; try lra. auto.
    + split; [simpl; rewrite El; simpl; left; apply exp_pos|split; [reflexivity|split]].
      * intros B HB. destruct d, B; simpl in *; tauto.
      * cbn [probR in_evset]. rewrite (HjA x Hx). reflexivity.
  - destruct (cond_simple_interval_bayes d j Hc Hok Ho (not_singleton j Ho Hs) Hi) as [q [H1 [H2 [H3 [H4 [H5 H6]]]]]].
    assert (Hjo : interval_ok [j]) by (split; [constructor; auto|simpl; split; auto; intros ? []]).
    assert (Hev : forall B, evset_ok d B -> evset_ok q B) by (intros B HB; destruct d, q, B; simpl in *; tauto).
    assert (Hb : forall B C, evset_ok d B -> evset_wf d C -> (forall x, in_evset C x = in_evset (EInt [j]) x && in_evset B x) ->
      probR q B = probR d C / probR d (EInt [j])).
    { intros B C HB HC Hx. destruct B as [B|L]; [|destruct d; simpl in *; tauto]. destruct C as [C|L]; [|destruct d; simpl in *; tauto].
      apply H6.
      - destruct d; simpl in *; tauto.
      - destruct d; simpl in *; tauto.
      - intros x. specialize (Hx x). simpl in Hx. rewrite Hx, orb_false_r. apply andb_comm. }
    exists q. split; [auto|split; [auto|split]].
    + split; [auto|split; [auto|split; [auto|]]]. rewrite (Hb (EInt A) (EInt [j])); auto.
      * field. lra.
      * destruct d; simpl in *; tauto.
      * intros x. simpl. rewrite orb_false_r. destruct (in_sint j x) eqn:E; auto. now rewrite HjA.
    + intros _. split; [auto|split; [auto|split; auto]].
Qed.

Lemma Rsum_filter_nz {A} (h : A -> R) l : Rsum (map h l) = Rsum (map h (filter (fun k => negb (Reqb (h k) 0)) l)).
Proof. induction l as [|k l IH]; simpl; auto. destruct (Reqb_spec (h k) 0); simpl; rewrite IH; lra. Qed.

Lemma Rsum_support (h : Z -> R) l1 l2 : NoDup l1 -> NoDup l2 -> (forall k, h k <> 0 -> (In k l1 <-> In k l2)) ->
  Rsum (map h l1) = Rsum (map h l2).
Proof.
  intros H1 H2 H. rewrite (Rsum_filter_nz h l1), (Rsum_filter_nz h l2). apply TreeLocal.Rsum_perm, Permutation.Permutation_map.
  apply Permutation.NoDup_Permutation; try now apply NoDup_filter. intros k. rewrite !filter_In.
  destruct (Reqb_spec (h k) 0); simpl; [split; intros [_ X]; discriminate|rewrite H by auto; tauto].
Qed.

Lemma mass_as_keys p A : NoDup (keys p) ->
  Rsum (map (fun kv => ind (in_evset A (IZR (fst kv))) * snd kv) p) = Rsum (map (fun k => ind (in_evset A (IZR k)) * dget p k) (keys p)).
Proof.
  intros Hn. unfold keys. rewrite map_map. apply Rsum_ext. intros [k q] Hin. simpl. now rewrite (dget_In p k q).
Qed.

Lemma discrete_bayes p q A B C P : dict_ok p -> NoDup (keys q) -> P <> 0 ->
  (forall k, dget q k = if in_evset A (IZR k) then dget p k / P else 0) ->
  (forall x, in_evset C x = in_evset A x && in_evset B x) ->
  Rsum (map (fun kv => ind (in_evset B (IZR (fst kv))) * snd kv) q) = Rsum (map (fun kv => ind (in_evset C (IZR (fst kv))) * snd kv) p) / P.
Proof.
  intros [Hp _] Hq HP Hg HC. rewrite !mass_as_keys by auto. unfold Rdiv. rewrite Rmult_comm, <- Rsum_scal.
  rewrite (Rsum_support _ (keys q) (keys p)); auto.
  - apply Rsum_ext. intros k _. rewrite Hg, HC. unfold ind. destruct (in_evset A (IZR k)), (in_evset B (IZR k)); simpl; unfold Rdiv; ring.
  - intros k Hk. split; intros _.
    + destruct (in_dec Z.eq_dec k (keys p)); auto. exfalso. apply Hk. rewrite Hg, (dget_absent p) by auto. destruct (in_evset A _); unfold Rdiv; ring.
    + destruct (in_dec Z.eq_dec k (keys q)); auto. exfalso. apply Hk. rewrite (dget_absent q) by auto. ring.
Qed.

Lemma bayes_on_event d A q : dist_ok d -> evset_ok d A -> probR d A <> 0 -> bayes d A q -> on_event d A q.
Proof.
  intros Hok HA Hp [B1 [B2 [B3 B4]]]. split; [auto|split; [auto|split; [auto|]]]. rewrite (B4 A A); auto.
  - field. auto.
  - destruct d, A; simpl in *; tauto.
  - intros x. destruct (in_evset A x); auto.
Qed.

Theorem leaf_cond_spec d A : dist_ok d -> evset_ok d A -> cap_ok d ->
  (pmass d A = 0 /\ leaf_cond d A = Some LDead) \/
  (0 < pmass d A /\ exists q lp, leaf_cond d A = Some (LOne q lp) /\ nexp lp = Fin (pmass d A) /\ on_event d A q /\
     (no_points d A -> bayes d A q)) \/
  (0 < pmass d A /\ exists js l lp, A = EInt js /\ leaf_cond d A = Some (LMany l lp) /\ nexp lp = Fin (pmass d A) /\
     is_cont d /\ (2 <= length (support_inter d js))%nat /\
     Forall2 (fun j pd => fst pd = Fin (part_mass d j) /\ 0 < part_mass d j /\ on_event d A (snd pd) /\
       (is_singleton j = false -> bayes d (EInt [j]) (snd pd))) (support_inter d js) l).
Proof.
  intros Hok HA Hcap.
  assert (Hdisc : match d with DSym _ _ | DInt _ _ => True | _ => False end ->
    (probR d A = 0 /\ leaf_cond d A = Some LDead) \/
    (probR d A <> 0 /\ exists q lp, leaf_cond d A = Some (LOne q lp) /\ nexp lp = Fin (probR d A) /\ bayes d A q)).
  { clear Hcap. intros Hd. destruct (C31_conditional d A) as [HP [res [mk [Hc [Hmk He]]]]].
    { destruct d; simpl in *; tauto. }
    { destruct d, A; simpl in *; tauto. }
    assert (EP : probR d A = mass_in (dict_of d) A).
    { rewrite prob1_R in HP by auto. now injection HP. }
    assert (Epr : probR d A = Rsum (map (fun kv => ind (in_evset A (IZR (fst kv))) * snd kv) (dict_of d))) by (destruct d; simpl in *; tauto).
    assert (El : leaf_cond d A = match discrete_cond d A with None => None | Some (Some d', lp) => Some (LOne d' lp) | Some (None, _) => Some LDead end)
      by (destruct d; simpl in *; tauto).
    rewrite He in El. destruct Hc as [C1 C2]. destruct (Req_dec (probR d A) 0) as [E0|E0].
    - left. split; auto. rewrite C1 in El by congruence. exact El.
    - right. split; auto. destruct C2 as [q [Eq [Q1 [Q2 Q3]]]]; [congruence|]. rewrite Eq in El. simpl in El.
      exists (mk q), (Fin (ln (mass_in (dict_of d) A))). split; [auto|].
      assert (0 < mass_in (dict_of d) A) by (rewrite <- EP; pose proof (probR_nonneg d A Hok HA); lra).
      split; [simpl; now rewrite exp_ln, EP|].
      assert (Hok' : dict_ok (dict_of d)) by (destruct d; simpl in *; tauto).
      assert (Hqok : dict_ok q).
      { split; auto. apply Forall_forall. intros x Hx. apply in_map_iff in Hx. destruct Hx as [[k y] [<- Hx]]. simpl.
        rewrite <- (dget_In q k y) by auto. rewrite Q3. destruct (in_evset A (IZR k)); [|lra]. apply Rmult_le_pos; [now apply dget_nonneg|].
        left. now apply Rinv_0_lt_compat. }
      assert (Hmk' : match d with DSym v _ => mk q = DSym v q | DInt v _ => mk q = DInt v q | _ => False end).
      { destruct d as [v i|v loc c|v mu s|v i mu s|v p|v p], A as [A|L]; simpl in *; try tauto; unfold finish_discrete in He;
          destruct (Reqb _ 0); try (rewrite Eq in He; simpl in He; congruence);
          rewrite Eq in He; simpl in He; injection He as He _; specialize (Hmk q); rewrite <- He in Hmk |- *; simpl in Hmk; now rewrite Hmk. }
      split; [|split; [|split]].
      + destruct d; simpl in *; try tauto; rewrite Hmk'; simpl; auto.
      + destruct d; simpl in *; try tauto; rewrite Hmk'; simpl; auto.
      + intros B. destruct d; simpl in *; try tauto; rewrite Hmk'; simpl; auto.
      + intros B C HB HC Hx.
        assert (E1 : probR (mk q) B = Rsum (map (fun kv => ind (in_evset B (IZR (fst kv))) * snd kv) q)).
        { destruct d; simpl in *; try tauto; rewrite Hmk'; simpl; auto. }
        assert (E2 : probR d C = Rsum (map (fun kv => ind (in_evset C (IZR (fst kv))) * snd kv) (dict_of d))).
        { destruct d; simpl in *; try tauto. }
        rewrite E1, E2. eapply discrete_bayes; eauto. intros k. rewrite EP. apply Q3. }
  assert (Hcont : is_cont d -> (pmass d A = 0 /\ leaf_cond d A = Some LDead) \/
    (0 < pmass d A /\ exists q lp, leaf_cond d A = Some (LOne q lp) /\ nexp lp = Fin (pmass d A) /\ on_event d A q /\
     (no_points d A -> bayes d A q)) \/
    (0 < pmass d A /\ exists js l lp, A = EInt js /\ leaf_cond d A = Some (LMany l lp) /\ nexp lp = Fin (pmass d A) /\
     is_cont d /\ (2 <= length (support_inter d js))%nat /\
     Forall2 (fun j pd => fst pd = Fin (part_mass d j) /\ 0 < part_mass d j /\ on_event d A (snd pd) /\
       (is_singleton j = false -> bayes d (EInt [j]) (snd pd))) (support_inter d js) l)).
  { intros Hc. destruct A as [A|L]; [|destruct d; simpl in *; tauto].
    assert (HA' : interval_ok A) by (destruct d; simpl in *; tauto). clear Hdisc.
    destruct (support_inter_prob d A Hc Hok HA') as [Ho [HP Hin]].
    assert (Hpart : forall j, In j (support_inter d A) -> exists q, cond_simple_interval d j = Some (q, nlog (Fin (part_mass d j))) /\
       0 < part_mass d j /\ on_event d (EInt A) q /\ (is_singleton j = false -> bayes d (EInt [j]) q)) by (intros j Hj; apply (cont_part d A j); auto).
    assert (EP : pmass d (EInt A) = Rsum (map (part_mass d) (support_inter d A))) by (destruct d; simpl in Hc; tauto).
    assert (Hnp : no_points d (EInt A) -> forall j, In j (support_inter d A) -> is_singleton j = false) by (destruct d; simpl in *; tauto).
    assert (Hlog : forall y, 0 < y -> nexp (nlog (Fin y)) = Fin y) by (intros y Hy; apply nexp_nlog; simpl; lra).
    assert (El : leaf_cond d (EInt A) = match support_inter d A with
      | [] => Some LDead
      | [j] => match cond_simple_interval d j with Some (d', lp) => Some (LOne d' lp) | None => None end
      | js => match composite_parts d js with
              | None => None
              | Some l => let total := nsum (map fst l) in
                          if is_zero total then Some LDead else Some (LMany l (nlog total))
              end
      end) by (destruct d; simpl in *; tauto).
    destruct (support_inter d A) as [|j [|j2 js]] eqn:ES.
    - left. split; auto.
    - right. left. destruct (Hpart j (or_introl eq_refl)) as [q [H1 [H2 [H3 H4]]]].
      assert (E1 : pmass d (EInt A) = part_mass d j) by (rewrite EP; simpl; lra). rewrite E1.
      split; [lra|]. exists q, (nlog (Fin (part_mass d j))). rewrite H1 in El. split; [auto|split; [now apply Hlog|split; [auto|]]].
      intros Hn. specialize (Hnp Hn j (or_introl eq_refl)).
      destruct (H4 Hnp) as [B1 [B2 [B3 B4]]]. split; [auto|split; [auto|split; [auto|]]].
      assert (E2 : probR d (EInt [j]) = probR d (EInt A)) by exact HP. rewrite E2 in *.
      intros B C HB HC Hx.
      destruct B as [B|L]; [|destruct d; simpl in *; tauto]. destruct C as [C|L]; [|destruct d; simpl in *; tauto].
      assert (HB' : interval_ok B) by (destruct d; simpl in *; tauto). assert (HC' : interval_ok C) by (destruct d; simpl in *; tauto).
      destruct (support_inter_prob d C Hc Hok HC') as [Ho2 [HP2 Hin2]]. rewrite <- HP2.
      apply B4; auto; [destruct d; simpl in *; tauto|].
      intros x. destruct (cont_support d Hc Hok) as [i [Es [Hi _]]]. unfold support_inter in ES |- *. rewrite Es in *.
      change (in_evset (EInt (interval_inter [i] C)) x) with (in_interval (interval_inter [i] C) x).
      rewrite in_interval_inter; [|constructor; auto|apply HC'].
      assert (Hjx : in_interval [j] x = in_interval [i] x && in_interval A x) by (rewrite <- ES; apply in_interval_inter; [constructor; auto|apply HA']).
      specialize (Hx x). simpl in Hx. simpl. simpl in Hjx. rewrite Hx. rewrite Hjx. now rewrite andb_assoc.
    - right. right. set (J := j :: j2 :: js) in *.
      assert (HL : exists l, mapM (cond_simple_interval d) J = Some l /\
        Forall2 (fun j q => snd q = nlog (Fin (part_mass d j)) /\ 0 < part_mass d j /\ on_event d (EInt A) (fst q) /\
          (is_singleton j = false -> bayes d (EInt [j]) (fst q))) J l).
      { clearbody J. clear - Hpart. induction J as [|j J IH]; [exists []; auto|]. destruct IH as [l [L1 L2]]; [intros; apply Hpart; now right|].
        destruct (Hpart j (or_introl eq_refl)) as [q [H1 [H2 [H3 H4]]]]. exists ((q, nlog (Fin (part_mass d j))) :: l). split; [|constructor; auto].
        simpl. rewrite H1. unfold mapM in L1 |- *. now rewrite L1. }
      destruct HL as [l0 [L1 L2]].
      assert (HL : exists l, composite_parts d J = Some l /\ nsum (map fst l) = Fin (Rsum (map (part_mass d) J)) /\
        Forall2 (fun j pd => fst pd = Fin (part_mass d j) /\ 0 < part_mass d j /\ on_event d (EInt A) (snd pd) /\
          (is_singleton j = false -> bayes d (EInt [j]) (snd pd))) J l).
      { unfold composite_parts. rewrite L1. eexists. split; [reflexivity|]. clearbody J. clear - L2 Hlog.
        induction L2 as [|j [q w] J l [HA [HB HC]] HF IH]; [simpl; auto|]. cbn [map filter fst snd].
        cbn [fst snd] in HA, HC. subst w. rewrite Hlog by auto. cbn [is_zero]. destruct (Reqb_spec (part_mass d j) 0) as [E|E]; [lra|]. cbn [negb map fst]. split.
        - destruct IH as [IH _]. unfold nsum in IH |- *. cbn [fold_right]. rewrite IH. reflexivity.
        - constructor; [simpl; auto|apply IH]. }
      destruct HL as [l [K1 [K2 K3]]]. change (j :: j2 :: js) with J in El.
      assert (Hpos : 0 < Rsum (map (part_mass d) J)).
      { unfold J. simpl. destruct (Hpart j (or_introl eq_refl)) as [_ [_ [P1 _]]]. destruct (Hpart j2 (or_intror (or_introl eq_refl))) as [_ [_ [P2 _]]].
        assert (0 <= Rsum (map (part_mass d) js)); [|lra]. apply Rsum_nonneg, Forall_map, Forall_forall. intros j' Hj'.
        destruct (Hpart j') as [_ [_ [P3 _]]]; [unfold J; simpl; auto|lra]. }
      rewrite EP in *. rewrite K1 in El. cbv zeta in El. rewrite K2 in El. cbn [is_zero] in El.
      destruct (Reqb_spec (Rsum (map (part_mass d) J)) 0) as [E0|E0] in El; [lra|].
      split; [auto|]. exists A, l, (nlog (Fin (Rsum (map (part_mass d) J)))). split; [auto|split; [exact El|split; [now apply Hlog|]]].
      rewrite ES. split; [exact Hc|split; [unfold J; simpl; lia|auto]]. }
  assert (Hdisc' : match d with DSym _ _ | DInt _ _ => True | _ => False end ->
    (pmass d A = 0 /\ leaf_cond d A = Some LDead) \/
    (0 < pmass d A /\ exists q lp, leaf_cond d A = Some (LOne q lp) /\ nexp lp = Fin (pmass d A) /\ on_event d A q /\
     (no_points d A -> bayes d A q))).
  { intros Hd. assert (E : pmass d A = probR d A) by (destruct d; simpl in Hd; tauto). rewrite E.
    destruct (Hdisc Hd) as [H|[H [q [lp [H1 [H2 H3]]]]]]; [now left|right]. split; [pose proof (probR_nonneg d A Hok HA); lra|].
    exists q, lp. split; [auto|split; [auto|split; [now apply bayes_on_event|auto]]]. }
  clear Hdisc.
  destruct d as [v i|v loc c|v mu s|v i mu s|v p|v p]; try (apply Hcont; exact I); try (destruct (Hdisc' I); auto; fail).
  clear Hdisc' Hcont. simpl in Hcap. destruct Hcap as [c0 [-> Hc0]]. destruct A as [A|L]; [|simpl in HA; tauto]. assert (HA0 := HA). simpl in HA. destruct HA as [HA Hne].
  assert (Hs : sint_ok (isingleton loc)) by (unfold sint_ok, isingleton; simpl; repeat split; try discriminate; right; eauto).
  assert (Hpt : forall x, in_sint (isingleton loc) x = true -> x = loc).
  { intros x. unfold in_sint, isingleton, above, below. simpl. rb; simpl; try discriminate; intros _; lra. }
  assert (Hloc : in_sint (isingleton loc) loc = true) by (unfold in_sint, isingleton, above, below; simpl; rb; auto; lra).
  unfold leaf_cond, support_inter. cbn [support1]. rewrite inter_single.
  assert (Hcase : (in_interval A loc = false /\ filter (fun j => negb (sint_empty j)) (map (sint_inter (isingleton loc)) A) = []) \/
    (in_interval A loc = true /\ exists j, filter (fun j => negb (sint_empty j)) (map (sint_inter (isingleton loc)) A) = [j] /\ is_singleton j = true /\ lo j = Fin loc)).
  { assert (Hone : forall j, sint_ok j -> (in_sint j loc = false /\ sint_empty (sint_inter (isingleton loc) j) = true) \/
      (in_sint j loc = true /\ sint_empty (sint_inter (isingleton loc) j) = false /\ is_singleton (sint_inter (isingleton loc) j) = true /\ lo (sint_inter (isingleton loc) j) = Fin loc)).
    { intros j Hj. destruct (in_sint j loc) eqn:Ej.
      - right. split; auto.
        assert (E : sint_empty (sint_inter (isingleton loc) j) = false).
        { destruct (sint_empty (sint_inter (isingleton loc) j)) eqn:E; auto. apply sint_empty_spec with (x := loc) in E.
          rewrite sint_inter_points, Hloc, Ej in E by auto. discriminate. }
        split; auto. assert (Ho := sint_inter_ok _ _ Hs Hj E). destruct (sint_inter_inside _ _ Hs Hj) as [I1 I2].
        change (lo (isingleton loc)) with (Fin loc) in I1. change (hi (isingleton loc)) with (Fin loc) in I2. destruct Ho as [O1 [O2 [O3 [O4 [O5|[a [O5 [O6 [O7 O8]]]]]]]]].
        + exfalso. assert (L := nle_nlt_trans _ _ _ I1 (nlt_nle_trans _ _ _ O5 I2)). simpl in L. lra.
        + assert (a = loc); [|subst a; unfold is_singleton; rewrite O5, O6, O7, O8; destruct (Reqb_spec loc loc); simpl; tauto].
          rewrite O5 in I1. rewrite O6 in I2. destruct I1 as [I1|I1]; [injection I1; auto|]. destruct I2 as [I2|I2]; [injection I2; auto|]. simpl in *. lra.
      - left. split; auto. destruct (sint_empty (sint_inter (isingleton loc) j)) eqn:E; auto. exfalso.
        destruct (sint_ok_point _ (sint_inter_ok _ _ Hs Hj E)) as [x Hx]. rewrite sint_inter_points in Hx by auto. apply andb_true_iff in Hx.
        destruct Hx as [X1 X2]. apply Hpt in X1. subst x. congruence. }
    destruct HA as [HA HD]. clear Hne HA0. induction A as [|a A IH]; [left; auto|]. inversion HA; subst. destruct HD as [HD1 HD2].
    change (in_interval (a :: A) loc) with (in_sint a loc || in_interval A loc)%bool. simpl map. simpl filter.
    destruct (Hone a H1) as [[X1 X2]|[X1 [X2 [X3 X4]]]]; rewrite X1, X2; simpl; [apply IH; auto|].
    right. split; auto. exists (sint_inter (isingleton loc) a). split; [|auto]. f_equal. apply SimplifyFacts.filter_nil. intros j Hj.
    apply in_map_iff in Hj. destruct Hj as [j' [<- Hj]]. apply negb_false_iff. rewrite Forall_forall in H2.
    destruct (Hone j' (H2 j' Hj)) as [[Y1 Y2]|[Y1 _]]; auto. exfalso. apply (HD1 j' Hj loc). auto. }
  destruct Hcase as [[E ->]|[E [j [-> [Hj1 Hj2]]]]].
  - left. split; auto. cbn [pmass in_evset]. rewrite E. simpl. ring.
  - right. left. cbn [pmass in_evset]. rewrite E. cbn [ind]. rewrite Rmult_1_r. split; [auto|]. unfold cond_simple_interval. rewrite Hj1, Hj2.
    unfold cond_singleton.
    assert (Ell : ll1 (DDirac v loc (Fin c0)) loc = nlog (Fin c0)).
    { simpl. destruct (Reqb_spec loc loc); [auto|tauto]. }
    rewrite Ell. eexists. eexists. split; [reflexivity|]. rewrite nexp_nlog by (simpl; lra). split; [auto|].
    assert (Hon : on_event (DDirac v loc (Fin c0)) (EInt A) (DDirac v loc (Fin c0))).
    { split; [simpl; lra|split; [reflexivity|split; [auto|]]]. cbn [probR in_evset]. rewrite E. reflexivity. }
    split; [exact Hon|]. intros _. destruct Hon as [O1 [O2 [O3 _]]]. split; [exact O1|split; [exact O2|split; [exact O3|]]].
    intros B C HB HC Hx. cbn [probR]. rewrite Hx. cbn [in_evset]. rewrite E. simpl. field.
Qed.
