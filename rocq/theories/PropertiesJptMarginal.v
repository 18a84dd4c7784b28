(** * Property C81: marginals of joint probability trees *)
From Coq Require Import List Arith Bool Lia ZArith Reals Lra Sorting.Sorted.
From Verif Require Import Num Graph GraphFacts Spec SpecFacts Circuit EvalFacts VarFacts Interval Dist DistFacts Simplify SimplifyFacts ModeFacts TreeProb TreeLocal Restrict MarginalFacts
  Layout LayoutFacts Star Support SupportFacts PropertiesProb PropertiesMarginal PropertiesSupport PropertiesCopy BayesNet Mixture FromMixture PropertiesMixture Nyga NygaFacts UniformStar PropertiesUniform
  Jpt JptFacts PropertiesNyga PropertiesJpt PropertiesJptModel PropertiesDist JptMarginal JptMarginalFacts.
Import ListNotations.
Local Set Bullet Behavior "Strict Subproofs".
Local Open Scope R_scope.

(** ** The specification *)
(** The leaves that learning creates for the kinds of variables: mixtures of uniforms and points, and discrete distributions. *)
Definition learned (types : nat -> vtype) (d : dist) : Prop :=
  match types (dvar d) with
  | TContinuous => (exists i, d = DUnif (dvar d) i) \/ (exists x c, d = DDirac (dvar d) x c)
  | TInteger => exists p, d = DInt (dvar d) p
  | TSymbolic => exists p, d = DSym (dvar d) p
  end.

(** Exactly one variable is asked for. *)
Definition asks_one (t : pc dist) (vs : list nat) (v : nat) : Prop := forall w, In w vs /\ mentions dist_vars t w <-> w = v.

(** The variables of [h] are those of [vs] and it answers every event over them like the model. *)
Definition is_marginal (vs : list nat) (g : graph dist) (t : pc dist) (h : graph dist) : Prop :=
  (exists vars, circuit_variables dist_vars h = Some vars /\ forall v, In v vars <-> mentions dist_vars t v /\ In v vs) /\
  forall e, event_ok t e -> extends_by_domain t vs e -> exists p, answers g e p /\ answers h e p.

(** The claim: with or without simplification, for any variables. *)
Definition C81_full : Prop := forall types b vs g r t, valid_tree g r t -> fin_sums t -> all_leaves (learned types) t ->
  exists res, jpt_marginal types b vs g = Some res /\ (res = None <-> forall v, In v vs -> ~ mentions dist_vars t v) /\
  forall h, res = Some h -> is_marginal vs g t h.

(** ** The proof *)
Lemma no_products_mixture (P : dist -> Prop) g u t : (forall x, node_kind g x <> Some UProd) -> all_leaves P t -> unfolds g u t -> mixture P t.
Proof.
  intros Hn HP Ht. revert u t Ht HP. refine (unfolds_ind' g _ _ _ _); [intros u d Hk HP|intros u ts Hk Hne HF HP|intros u ts Hk HF HP]; cbn [mixture all_leaves] in *.
  - exact HP.
  - rewrite fold_and_Forall in *. clear -HF HP. induction HF as [|e [w t] es ts [A1 [A2 A3]] HF IH]; constructor; inversion HP; subst; auto.
  - exact (Hn _ Hk).
Qed.

Lemma one_leaf_answers d e p : prob1 d (e (dvar d)) = Some (Fin p) -> answers (one_leaf d) e p.
Proof. intros H st. unfold probability_of_simple_event, one_leaf. cbn. unfold dist_prob. rewrite H. cbn. eexists. reflexivity. Qed.

Lemma pruned_learned types v d : types v = TContinuous -> dvar d = v -> learned types d -> (forall x c, d <> DDirac v x c) -> dist_ok d -> unif_over v d.
Proof.
  intros Ht Hv Hl Hd Hok. unfold learned in Hl. rewrite Hv, Ht in Hl. destruct Hl as [[i E]|[x [c E]]]; [|destruct (Hd _ _ E)]. exists i. split; [exact E|]. rewrite E in Hok. exact Hok.
Qed.

(** What the marginal over one variable is before it is simplified. *)
Lemma univariate_marginal vs v g r t : valid_tree g r t -> fin_sums t -> asks_one t vs v ->
  exists g' r' t', marginal_in_place (fun _ => false) marginal1 vs g = Some (Some g') /\ tree_circuit g' r' t' /\ (forall x, node_kind g' x <> Some UProd) /\
    circuit_variables dist_vars g' = Some [v] /\ normalised t' /\
    (forall P, all_leaves P t -> all_leaves P t') /\ (forall w, mentions dist_vars t' w <-> w = v) /\
    forall e, event_ok t e -> extends_by_domain t vs e -> exists p, answers g e p /\ answers g' e p.
Proof.
  intros V F Ho. pose proof V as [T L U N S Dc O]. assert (H : tree_circuit g r t) by (constructor; auto).
  set (kp := fun d => existsb (Nat.eqb (dvar d)) vs).
  assert (Hu : all_leaves (uni kp dist_vars vs) t) by (apply all_leaves_True; intros d; exists (dvar d); auto).
  assert (Hv : In v vs /\ mentions dist_vars t v) by now apply Ho.
  assert (Es : survives kp t = true) by (apply (survives_iff kp dist_vars vs t Hu); exists v; exact Hv).
  pose proof (marginal_meaning kp (fun _ => false) dist_vars marginal1 vs (fun d => eq_refl) g r t H (all_leaves_True _ t (fun _ => eq_refl)) N S Dc Hu) as HM.
  rewrite Es in HM. destruct HM as [g' [r' [t' [H1 [H2 [H3 [H4 [H5 [H6 [H7 H8]]]]]]]]]].
  destruct (C12_marginal_partial vs g r t V F) as (res & E & _ & HC). rewrite H1 in E. injection E as <-. destruct (HC g' eq_refl) as [(vars & V1 & V2 & V3) HA].
  assert (M : forall w, In w vars <-> w = v) by (intros w; rewrite V3, <- (Ho w); tauto).
  exists g', r', t'. split; [exact H1|]. split; [exact H2|]. split; [|split; [|split; [exact H5|split; [exact H4|split; [|exact HA]]]]].
  - eapply (marginal_no_products kp dist_vars vs v marginal1 (fun d => eq_refl) (fun _ => false) g r t g'); auto.
    + now apply all_leaves_True.
    + intros w Hw Hm. apply Ho. auto.
  - rewrite V1. f_equal. destruct vars as [|a [|b vars]].
    + destruct (proj2 (M v) eq_refl).
    + f_equal. apply M. now left.
    + exfalso. assert (a = v) by (apply M; now left). assert (b = v) by (apply M; right; now left). inversion V2 as [|? ? ? F']; subst. inversion F'; subst. lia.
  - intros w. rewrite H8, <- (Ho w). tauto.
Qed.

Lemma over_one v t : (forall w, mentions dist_vars t w <-> w = v) -> all_leaves (fun d => dvar d = v) t.
Proof.
  intros H. assert (G : forall t, (forall w, mentions dist_vars t w -> w = v) -> all_leaves (fun d => dvar d = v) t).
  { clear. induction t as [d|l IH|l IH] using pc_ind'; cbn [mentions all_leaves]; intros H.
    - apply H. now left.
    - rewrite fold_and_Forall, Forall_forall in *. intros wt Hin. apply IH; auto. intros w Hw. apply H. apply fold_or_Exists, Exists_exists. eauto.
    - rewrite fold_and_Forall, Forall_forall in *. intros wt Hin. apply IH; auto. intros w Hw. apply H. apply fold_or_Exists, Exists_exists. eauto. }
  apply G. intros w. apply H.
Qed.

(** ** C81 *)
(** A continuous variable without point masses: the marginal is a deterministic mixture of uniforms. *)
Theorem C81_continuous_partial types vs v g r t : valid_tree g r t -> fin_sums t -> all_leaves (learned types) t -> asks_one t vs v ->
  types v = TContinuous -> all_leaves (fun d => forall x c, d <> DDirac v x c) t ->
  exists h, jpt_marginal types true vs g = Some (Some h) /\ circuit_variables dist_vars h = Some [v] /\
    (exists st, is_deterministic h empty_store = Some (true, st)) /\
    forall e, event_ok t e -> extends_by_domain t vs e -> exists p, answers g e p /\ answers h e p.
Proof.
  intros V F HL Ho Ht Hd. destruct (univariate_marginal vs v g r t V F Ho) as (g' & r' & t' & E & T & NP & EV & N & HP & M & HA).
  assert (Hov := over_one v t' M).
  assert (Hun : all_leaves (unif_over v) t').
  { eapply all_leaves_impl; [|exact (all_leaves_and _ _ _ Hov (all_leaves_and _ _ _ (HP _ HL) (all_leaves_and _ _ _ (HP _ Hd) (HP _ (vt_ok _ _ _ V)))))].
    cbn beta. intros d (A1 & A2 & A3 & A4). eapply pruned_learned; eauto. }
  assert (Hlay := tree_layered _ _ _ T).
  assert (HU : uniforms v g').
  { intros u k Hk. destruct k as [d| |]; [|exact I|exact (NP u Hk)]. destruct (tc_kinds (unif_over v) g' r' t' T Hun u d Hk) as (i & -> & Hi). split; [reflexivity|exact Hi]. }
  destruct (C41_from_uniform_mixture g' t' v Hlay HU (fin_ok _ (tc_fin _ _ _ T))) as (h & Eh & Vh & Dh & Ah).
  exists h. split; [|split; [exact Vh|split; [exact Dh|]]].
  - unfold jpt_marginal. rewrite E, EV. cbn [length Nat.ltb Nat.leb orb negb as_univariate]. rewrite Ht, Eh. reflexivity.
  - intros e He Hx. destruct (HA e He Hx) as (p & P1 & P2).
    assert (Hin : exists A, e v = EInt A /\ interval_ok A /\ A <> []).
    { assert (X := all_leaves_and _ _ _ Hun (HP _ He)). destruct (some_leaf (unif_over v) _ t' (unfolds_sums_nonempty _ _ _ (tc_unf _ _ _ T)) (no_products_mixture _ _ _ _ NP Hun (tc_unf _ _ _ T)) X) as (d & (i & -> & Hi) & Hd').
      cbn [dvar] in Hd'. destruct (e v) as [A|l]; cbn in Hd'; [|contradiction]. exists A. tauto. }
    destruct Hin as (A & EA & HA1 & HA2). destruct (Ah e A EA HA1 HA2) as (q & Q1 & Q2). exists p. split; [exact P1|]. now rewrite (answers_det _ _ _ _ P2 Q1).
Qed.

(** A discrete variable whose values Python's hash does not change: the marginal is one leaf. *)
Theorem C81_discrete_partial types vs v g r t : valid_tree g r t -> fin_sums t -> all_leaves (learned types) t -> asks_one t vs v ->
  types v <> TContinuous -> (types v = TInteger -> all_leaves (fun d => dvar d = v -> forall k, In k (keys (dprobs d)) -> pyhash k = k) t) ->
  exists d, jpt_marginal types true vs g = Some (Some (one_leaf d)) /\ dvar d = v /\ dist_ok d /\ learned types d /\
    forall e, event_ok t e -> extends_by_domain t vs e -> exists p, answers g e p /\ answers (one_leaf d) e p.
Proof.
  intros V F HL Ho Ht Hh. destruct (univariate_marginal vs v g r t V F Ho) as (g' & r' & t' & E & T & NP & EV & N & HP & M & HA).
  assert (Hov := over_one v t' M). assert (Hlay := tree_layered _ _ _ T). set (b := match types v with TInteger => true | _ => false end).
  assert (Hl : all_leaves (leaf_over b v) t').
  { eapply all_leaves_impl; [|exact (all_leaves_and _ _ _ Hov (HP _ HL))]. cbn beta. intros d [A1 A2]. unfold learned in A2. rewrite A1 in A2. unfold b, leaf_over, discrete_over.
    destruct (types v); [now destruct Ht| |]; exact A2. }
  destruct (C36_from_mixture_partial b v g' t' empty_store empty_store Hlay) as (p' & Ep & [_ R] & Hok).
  - eapply no_products_mixture; [exact NP|exact Hl|apply T].
  - apply HP, V.
  - apply fin_ok, T.
  - intros Hb. assert (Ti : types v = TInteger) by (unfold b in Hb; destruct (types v); congruence).
    eapply all_leaves_impl; [|exact (all_leaves_and _ _ _ Hov (HP _ (Hh Ti)))]. cbn beta. tauto.
  - assert (Dv : dvar (discrete_over b v p') = v) by (unfold discrete_over; now destruct b).
    exists (discrete_over b v p'). split; [|split; [exact Dv|split; [apply Hok, N|split]]].
    + unfold jpt_marginal. rewrite E, EV. cbn [length Nat.ltb Nat.leb orb negb as_univariate]. unfold b in *. destruct (types v); [now destruct Ht| |]; rewrite Ep; reflexivity.
    + unfold learned. rewrite Dv. unfold b, discrete_over. destruct (types v); [now destruct Ht| |]; eauto.
    + intros e He Hx. destruct (HA e He Hx) as (p & P1 & P2). destruct (R e (HP _ He)) as (q & Q1 & Q2). exists p. split; [exact P1|].
      rewrite (answers_det _ _ _ _ P2 Q2). apply one_leaf_answers. now rewrite Dv.
Qed.

(** Without the simplification, or for several variables, the circuit's marginal is returned. *)
Theorem C81_unsimplified types b vs g r t : valid_tree g r t -> fin_sums t -> b = false \/ (exists v w, v <> w /\ In v vs /\ In w vs /\ mentions dist_vars t v /\ mentions dist_vars t w) ->
  exists res, jpt_marginal types b vs g = Some res /\ (res = None <-> forall v, In v vs -> ~ mentions dist_vars t v) /\ forall h, res = Some h -> is_marginal vs g t h.
Proof.
  intros V F Hb. destruct (C12_marginal_partial vs g r t V F) as (res & E & HN & HC). exists res. split; [|split; [exact HN|]].
  - unfold jpt_marginal. rewrite E. destruct res as [h|]; [|reflexivity]. destruct (HC h eq_refl) as [(vars & V1 & V2 & V3) _]. rewrite V1.
    destruct Hb as [->|(v & w & Hne & Hv & Hw & Mv & Mw)]; [now rewrite orb_true_r|].
    assert (In v vars) by (apply V3; auto). assert (In w vars) by (apply V3; auto). destruct vars as [|a [|a' vars]]; [contradiction| |reflexivity].
    exfalso. destruct H as [<-|[]], H0 as [<-|[]]. now apply Hne.
  - intros h ->. destruct (HC h eq_refl) as [(vars & V1 & V2 & V3) HA]. split; [exists vars; auto|exact HA].
Qed.

(** The call never answers None by mistake. *)
Theorem C81_none types b vs g r t : valid_tree g r t -> fin_sums t -> (forall v, In v vs -> ~ mentions dist_vars t v) -> jpt_marginal types b vs g = Some None.
Proof.
  intros V F H. destruct (C12_marginal_partial vs g r t V F) as (res & E & HN & _). apply HN in H. subst res. unfold jpt_marginal. now rewrite E.
Qed.

(** All together: the guard concerns only the case of one variable.  Missing: point masses of a continuous variable and integers that
    Python's hash changes, where the claim is false, see [C81_refuted] and [C36_refuted]. *)
Theorem C81_marginal_partial types b vs g r t : valid_tree g r t -> fin_sums t -> all_leaves (learned types) t ->
  (b = true -> forall v, asks_one t vs v -> match types v with
     | TContinuous => all_leaves (fun d => forall x c, d <> DDirac v x c) t
     | TInteger => all_leaves (fun d => dvar d = v -> forall k, In k (keys (dprobs d)) -> pyhash k = k) t
     | TSymbolic => True end) ->
  exists res, jpt_marginal types b vs g = Some res /\ (res = None <-> forall v, In v vs -> ~ mentions dist_vars t v) /\
  forall h, res = Some h -> is_marginal vs g t h.
Proof.
  intros V F HL Hg. destruct b; [|apply (C81_unsimplified types false vs g r t); auto]. specialize (Hg eq_refl).
  destruct (C12_marginal_partial vs g r t V F) as (res & E & HN & HC). destruct res as [h0|].
  - destruct (HC h0 eq_refl) as [(vars & V1 & V2 & V3) _]. destruct vars as [|v [|w vars]].
    + exfalso. assert (X : Some h0 = None); [|discriminate X]. apply HN. intros v Hv Hm. now apply (V3 v).
    + assert (Ho : asks_one t vs v). { intros w. split; [intros [A B]; destruct (proj2 (V3 w) (conj B A)) as [<-|[]]; reflexivity|]. intros ->. destruct (proj1 (V3 v)) as [A B]; [now left|auto]. }
      assert (Hs : exists h, jpt_marginal types true vs g = Some (Some h) /\ circuit_variables dist_vars h = Some [v] /\ forall e, event_ok t e -> extends_by_domain t vs e -> exists p, answers g e p /\ answers h e p).
      { specialize (Hg v Ho). destruct (types v) eqn:Ev.
        - destruct (C81_continuous_partial types vs v g r t) as (h & A1 & A2 & _ & A3); auto. eauto.
        - destruct (C81_discrete_partial types vs v g r t) as (d & A1 & <- & _ & _ & A3); auto; [congruence|]. exists (one_leaf d). auto.
        - destruct (C81_discrete_partial types vs v g r t) as (d & A1 & <- & _ & _ & A3); auto; [congruence|congruence|]. exists (one_leaf d). auto. }
      destruct Hs as (h & A1 & A2 & A3). exists (Some h). split; [exact A1|]. split.
      * split; [discriminate|]. intros X. exfalso. destruct (proj1 (V3 v)) as [A B]; [now left|]. exact (X v B A).
      * intros h' X. injection X as <-. split; [|exact A3]. exists [v]. split; [exact A2|]. intros w. rewrite <- V3. reflexivity.
    + apply (C81_unsimplified types true vs g r t); auto. right. exists v, w. assert (A : In v (v :: w :: vars)) by now left. assert (B : In w (v :: w :: vars)) by (right; now left).
      apply V3 in A, B. repeat split; try tauto. intros ->. inversion V2 as [|? ? ? F']; subst. inversion F'; subst. lia.
  - exists None. split; [apply (C81_none types true vs g r t); auto; now apply HN|]. split; [exact HN|discriminate].
Qed.

(** A joint probability tree fitted to a continuous column with one value: the marginal over that column raises. *)
Definition point_tree : pc dist := PSum [(Fin 0, PProd [PLeaf (DDirac 0 5 PInf); PLeaf (DSym 1 [(0%Z, 1)])])].

Lemma point_tree_valid : valid_tree (layout point_tree) 0%nat point_tree /\ fin_sums point_tree.
Proof.
  split; [constructor|].
  - apply layout_tree.
  - apply layout_leaves_terminal.
  - apply layout_unfolds. cbn. repeat split; auto; discriminate.
  - unfold normalised, point_tree. cbn [all_sums map snd fst fold_right]. split; [split; [repeat constructor|]|cbn; auto]. unfold Rsum, wexp. cbn [map fold_right]. rewrite exp_0. ring.
  - cbn. unfold dist_vars. cbn. repeat split; auto. tauto.
  - cbn. unfold dist_vars. cbn. repeat split; auto. intros v [[<-|[]] [X|[]]]. discriminate X.
  - cbn. repeat split; auto; repeat constructor; cbn; try lra; auto.
  - cbn. repeat split; auto. repeat constructor.
Qed.

Theorem C81_refuted : ~ C81_full.
Proof.
  intros H. destruct point_tree_valid as [V F]. set (types := fun v : nat => if (v =? 0)%nat then TContinuous else TSymbolic).
  destruct (H types true [0%nat] (layout point_tree) 0%nat point_tree V F) as (res & E & _).
  - cbn. repeat split; auto; [right; exists 5, PInf; reflexivity|eexists; reflexivity].
  - revert E. assert (X : jpt_marginal types true [0%nat] (layout point_tree) = None) by reflexivity. rewrite X. discriminate.
Qed.

(** *** Fitted trees *)
(** The kind of a variable of the model. *)
Definition types_of (vars : list (nat * jkind)) (v : nat) : vtype := match find (fun p => (fst p =? v)%nat) vars with Some p => type_of (snd p) | None => TSymbolic end.

Lemma types_of_In vars v k : NoDup (map fst vars) -> In (v, k) vars -> types_of vars v = type_of k.
Proof.
  unfold types_of. induction vars as [|[w k'] vars IH]; [intros _ []|]. cbn [map fst find]. intros HN Hin. inversion HN as [|? ? N1 N2]; subst. destruct (Nat.eqb_spec w v) as [->|Hne].
  - destruct Hin as [X|Hin]; [now injection X as <-|]. destruct N1. apply in_map_iff. exists (v, k). auto.
  - destruct Hin as [X|Hin]; [congruence|auto].
Qed.

(** What a column becomes. *)
Definition from_column (v : nat) (k : jkind) (c : list R) (d : dist) : Prop := dvar d = v /\
  match type_of k with
  | TContinuous => (exists i, d = DUnif v i) \/ (exists x cap, d = DDirac v x cap)
  | TInteger => exists p, d = DInt v p /\ forall z, In z (keys p) -> exists x, In x c /\ z = pyhash (Int_part x)
  | TSymbolic => exists p, d = DSym v p
  end.

Lemma dset_keys (acc : dict) a q z : In z (keys (dset acc a q)) -> z = a \/ In z (keys acc).
Proof.
  unfold dset. destruct (existsb _ acc); unfold keys.
  - rewrite map_map. intros H. right. apply in_map_iff in H. destruct H as (kv & E & H). apply in_map_iff. exists kv. split; [|exact H]. rewrite <- E. now destruct (Z.eqb (fst kv) a).
  - rewrite map_app. intros H. apply in_app_or in H. destruct H as [H|[<-|[]]]; auto.
Qed.

Lemma dfit_keys h data z : In z (keys (dfit h data)) -> exists x, In x data /\ z = h x.
Proof.
  unfold dfit. assert (HI : forall x, In x (Dist.np_unique data) -> In x data) by (intros x; apply np_unique_In).
  assert (G : forall l acc, (forall x, In x l -> In x data) -> (forall z, In z (keys acc) -> exists x, In x data /\ z = h x) ->
    forall z, In z (keys (fold_left (fun acc x => dset acc (h x) (INR (count x data) / INR (length data))) l acc)) -> exists x, In x data /\ z = h x).
  { induction l as [|a l IH]; intros acc Hl Ha; cbn [fold_left]; [exact Ha|]. apply IH; [intros; apply Hl; now right|]. intros w Hw. apply dset_keys in Hw. destruct Hw as [->|Hw]; [exists a; split; [apply Hl; now left|reflexivity]|auto]. }
  apply G; [exact HI|intros w []].
Qed.

(** The two definitions of Python's hash agree. *)
Lemma pyhash_same z : Dist.pyhash z = pyhash z.
Proof. unfold Dist.pyhash, pyhash. rewrite Z.rem_mod by discriminate. reflexivity. Qed.

Lemma column_learned fuel v k c u : c <> [] -> column_ok k c -> (2 * length c <= fuel)%nat -> fit_column fuel v k c = Some u -> fin_sums u /\ all_leaves (from_column v k c) u.
Proof.
  intros Hne Hok Hf E. destruct k as [md imp q|h|]; cbn [fit_column column_ok] in *.
  - destruct Hok as [Hq Himp]. destruct (one_value c Hne) as [H2|(x & Ex & _)].
    + destruct (C40_nyga_partial log_likelihood_without_split log_likelihood_of_split v q imp c Hq Himp H2) as (leaves & Q & Ft). unfold Nyga.fit in E. rewrite (Ft fuel Hf) in E.
      unfold mixture_of in E. set (l := map _ leaves) in E.
      assert (Hl : l <> []). { intros X. apply map_eq_nil in X. pose proof (q_total _ _ _ _ Q) as T. rewrite X in T. cbn in T. lra. }
      rewrite (nyga_root_star l Hl) in E. injection E as <-. split.
      * unfold fin_sums. apply star_sums. unfold l. rewrite map_map. apply Forall_map, Forall_forall. intros wi Hwi. cbn [fst]. destruct (q_weights _ _ _ _ Q wi Hwi) as [Hp _].
        unfold nlog. destruct (total_order_T (fst wi) 0) as [[N|N]|N]; [lra|lra|exact I].
      * apply star_leaves. unfold l. apply Forall_map, Forall_forall. intros wi _. cbn [snd]. split; [reflexivity|]. left. eexists. reflexivity.
    + unfold Nyga.fit, fit_with in E. rewrite Ex in E. injection E as <-. split; [exact I|]. split; [reflexivity|]. right. eexists. eexists. reflexivity.
  - injection E as <-. split; [exact I|]. split; [reflexivity|]. eexists. reflexivity.
  - injection E as <-. split; [exact I|]. split; [reflexivity|]. eexists. split; [reflexivity|]. intros z Hz. apply dfit_keys in Hz. destruct Hz as (y & Hy & ->). apply in_map_iff in Hy. destruct Hy as (x & <- & Hx). rewrite pyhash_same. eauto.
Qed.

Lemma create_learned fuel vars data rows u : table_ok vars data -> rows <> [] -> incl rows data -> (2 * length rows <= fuel)%nat -> create_leaf_node fuel vars rows = Some u ->
  fin_sums u /\ all_leaves (fun d => exists i v k c, nth_error vars i = Some (v, k) /\ column data i = Some c /\ from_column v k c d) u.
Proof.
  intros (HN & HL & HC) Hne Hin Hf E. unfold create_leaf_node in E. destruct (mapM _ _) as [us|] eqn:Em; [|discriminate]. injection E as <-.
  assert (HLr : Forall (fun r : row => length r = length vars) rows) by (rewrite Forall_forall in *; auto).
  assert (G : Forall (fun t => fin_sums t /\ all_leaves (fun d => exists i v k c, nth_error vars i = Some (v, k) /\ column data i = Some c /\ from_column v k c d) t) us).
  { apply mapM_Forall2 in Em. assert (X : forall iv, In iv (combine (seq 0 (length vars)) vars) -> nth_error vars (fst iv) = Some (snd iv)).
    { intros [i vk] Hiv. cbn [fst snd]. clear -Hiv. assert (K : forall (vs : list (nat * jkind)) k i vk, In (i, vk) (combine (seq k (length vs)) vs) -> (k <= i)%nat /\ nth_error vs (i - k) = Some vk).
      { induction vs as [|a vs IH]; intros k i0 vk0 H; [destruct H|]. cbn [length seq combine In] in H. destruct H as [X|H].
        - injection X as <- <-. split; [lia|]. now rewrite Nat.sub_diag.
        - apply IH in H. destruct H as [H1 H2]. split; [lia|]. replace (i0 - k)%nat with (S (i0 - S k)) by lia. exact H2. }
      destruct (K _ _ _ _ Hiv) as [_ H]. now rewrite Nat.sub_0_r in H. }
    clear -Em X HN HL HC Hne Hin Hf HLr. revert X. induction Em as [|iv t ivs ts H1 H2 IH]; intros X; constructor; [|apply IH; intros; apply X; now right].
    assert (Hi : nth_error vars (fst iv) = Some (snd iv)) by (apply X; now left). assert (Hlt : (fst iv < length vars)%nat) by (apply nth_error_Some; congruence).
    destruct (column rows (fst iv)) as [c|] eqn:Ec; [|discriminate]. destruct (column_total data _ _ HL Hlt) as (cd & Ecd). destruct (column_In _ _ _ Ec) as [Lc Ic]. destruct (column_In _ _ _ Ecd) as [_ Icd].
    destruct (snd iv) as [v k] eqn:Ev. cbn [fst snd] in H1. assert (Hic : incl c cd) by (intros x Hx; apply Ic in Hx; destruct Hx as (r & Hr & E'); apply Icd; eauto).
    destruct (column_learned fuel v k c t) as [F1 F2]; auto.
    - intros ->. destruct rows; [contradiction|discriminate].
    - eapply column_ok_incl; [exact Hic|]. eapply HC; eauto.
    - lia.
    - split; [exact F1|]. eapply all_leaves_impl; [|exact F2]. cbn beta. intros d [D1 D2]. exists (fst iv), v, k, cd. split; [exact Hi|]. split; [exact Ecd|]. split; [exact D1|].
      destruct (type_of k); auto. destruct D2 as (p & -> & Hp). exists p. split; [reflexivity|]. intros z Hz. destruct (Hp z Hz) as (x & Hx & ->). eauto. }
  split.
  - unfold fin_sums. cbn [all_sums]. apply fold_and_Forall. eapply Forall_impl; [|exact G]. cbn. tauto.
  - cbn [all_leaves]. apply fold_and_Forall. eapply Forall_impl; [|exact G]. cbn. tauto.
Qed.

(** The marginals of every fitted tree.  The integers asked for are not changed by Python's hash; if a continuous variable is asked for
    alone, none of its columns became a point mass. *)
Theorem C81_fitted_partial best j data fuel b vs : let vars := variables_from_init j in let types := types_of vars in
  table_ok vars data -> data <> [] -> respects_contract best (with_total j (length data)) -> depth_limit j ->
  raw_min_samples_leaf j <= INR (length data) -> (2 * length data <= fuel)%nat ->
  (forall i v c x, In v vs -> nth_error vars i = Some (v, KInteger) -> column data i = Some c -> In x c -> pyhash (Int_part x) = Int_part x) ->
  exists leaves, fit best (create_leaf_node fuel vars) j fuel data [] = ([], Some leaves) /\
  ((b = true -> forall v, asks_one (tree_of_leaves leaves) vs v -> types v = TContinuous -> all_leaves (fun d => forall x c, d <> DDirac v x c) (tree_of_leaves leaves)) ->
   exists res, jpt_marginal types b vs (circuit_of leaves) = Some res /\ (res = None <-> forall v, In v vs -> ~ In v (map fst vars)) /\
   forall h, res = Some h -> is_marginal vs (circuit_of leaves) (tree_of_leaves leaves) h).
Proof.
  intros vars types Ht Hne Hb Hd Hm Hf Hh. destruct (C61_jpt_valid best j data fuel Ht Hne Hb Hd Hm Hf) as (leaves & E & L & V). exists leaves. split; [exact E|]. intros Hg.
  destruct (C42_jpt_partition_partial best (create_leaf_node fuel vars) j data) as (leaves' & E' & T); auto.
  { intros rows H1 H2 H3. destruct (create_valid fuel vars data rows Ht H1 H2) as (u & Eu & _); [lia|eauto]. }
  assert (leaves' = leaves) as -> by (rewrite E' in E by exact Hf; now injection E).
  pose proof Ht as (HN & _).
  assert (U : forall l, In l leaves -> fin_sums (l_unit l) /\ all_leaves (fun d => exists i v k c, nth_error vars i = Some (v, k) /\ column data i = Some c /\ from_column v k c d) (l_unit l)).
  { intros l Hl. destruct (t_units _ _ _ _ T l Hl) as (rows & E1 & E2). destruct (fetched data _ _ E1) as [L1 I1].
    assert (Hs := t_some _ _ _ _ T l Hl). assert (HP := Permutation.Permutation_length (t_samples _ _ _ _ T)). rewrite seq_length in HP.
    assert (HLl : (length (l_samples l) <= length data)%nat).
    { rewrite <- HP. destruct (in_split _ _ Hl) as (l1 & l2 & ->). rewrite map_app, concat_app, app_length. cbn [map concat]. rewrite app_length. lia. }
    apply (create_learned fuel vars data rows (l_unit l)); auto; [|lia]. intros ->. apply Hs. now destruct (l_samples l). }
  assert (F : fin_sums (tree_of_leaves leaves)).
  { unfold fin_sums, tree_of_leaves. cbn [all_sums]. split.
    - rewrite map_map. apply Forall_map, Forall_forall. intros l Hl. cbn [fst]. rewrite (t_weights _ _ _ _ T l Hl). assert (Hs := t_some _ _ _ _ T l Hl).
      assert (0 < INR (length (l_samples l))) by (apply lt_0_INR; destruct (l_samples l); [contradiction|cbn; lia]). assert (0 < INR (length data)) by (apply lt_0_INR; destruct data; [contradiction|cbn; lia]).
      assert (P : 0 < INR (length (l_samples l)) / INR (length data)) by (apply Rdiv_lt_0_compat; auto). unfold nlog. destruct (total_order_T _ 0) as [[N|N]|N]; [lra|lra|exact I].
    - rewrite map_map. apply fold_and_Forall, Forall_forall. intros l Hl. apply (U l Hl). }
  assert (HL : all_leaves (fun d => exists i v k c, nth_error vars i = Some (v, k) /\ column data i = Some c /\ from_column v k c d) (tree_of_leaves leaves)).
  { unfold tree_of_leaves. cbn [all_leaves]. rewrite map_map. apply fold_and_Forall, Forall_forall. intros l Hl. apply (U l Hl). }
  assert (TY : forall i v k, nth_error vars i = Some (v, k) -> types v = type_of k) by (intros i v k Hi; apply types_of_In; [exact HN|now apply nth_error_In in Hi]).
  assert (VT : valid_tree (circuit_of leaves) 0%nat (tree_of_leaves leaves)).
  { destruct V as [V1 V2 V3 V4 V5]. destruct L as (_ & Lt & r & Hr & _ & Hu). assert (r = 0%nat) as -> by (unfold circuit_of in Hr; rewrite (tree_root _ _ (layout_tree _)) in Hr; congruence).
    constructor; auto. apply layout_tree. }
  destruct (C81_marginal_partial types b vs (circuit_of leaves) 0%nat (tree_of_leaves leaves) VT F) as (res & R1 & R2 & R3).
  - eapply all_leaves_impl; [|exact HL]. cbn beta. intros d (i & v & k & c & Hi & _ & Dv & Hk). unfold learned. rewrite Dv, (TY _ _ _ Hi). destruct (type_of k); auto.
    destruct Hk as (p & -> & _). eauto.
  - intros Hb' v Ho. specialize (Hg Hb' v Ho). destruct (types v) eqn:Ev; auto. eapply all_leaves_impl; [|exact HL]. cbn beta. intros d (i & w & k & c & Hi & Hc & Dv & Hk) Dv' z Hz.
    assert (w = v) as -> by congruence. rewrite (TY _ _ _ Hi) in Ev. rewrite Ev in Hk. destruct Hk as (p & -> & Hp). cbn [dprobs] in Hz. destruct (Hp z Hz) as (x & Hx & ->).
    assert (k = KInteger) as -> by (destruct k; cbn in Ev; congruence). assert (Q : pyhash (Int_part x) = Int_part x) by (eapply Hh; eauto; apply (proj2 (Ho v) eq_refl)). now rewrite Q.
  - exists res. split; [exact R1|]. split; [|exact R3]. rewrite R2. split; intros H v Hv Hx; apply (H v Hv); now apply (o_variables _ _ V).
Qed.

(** ** Cases that meet the hypotheses *)
Definition half : num := Fin (ln (1 / 2)).
Definition case_tree : pc dist := PSum [
  (half, PProd [PSum [(half, PLeaf (DUnif 0 (iclosed_open 0 1))); (half, PLeaf (DUnif 0 (iclosed 1 3)))]; PLeaf (DInt 1 [(2%Z, 1/4); (3%Z, 3/4)])]);
  (half, PProd [PLeaf (DUnif 0 (iclosed 2 4)); PLeaf (DInt 1 [(3%Z, 1)])])].
Definition case_types (v : nat) : vtype := if (v =? 0)%nat then TContinuous else TInteger.

Example C81_case : valid_tree (layout case_tree) 0%nat case_tree /\ fin_sums case_tree /\ all_leaves (learned case_types) case_tree /\
  asks_one case_tree [0%nat] 0%nat /\ asks_one case_tree [1%nat] 1%nat /\
  all_leaves (fun d => forall x c, d <> DDirac 0 x c) case_tree /\ all_leaves (fun d => dvar d = 1%nat -> forall k, In k (keys (dprobs d)) -> pyhash k = k) case_tree.
Proof.
  assert (W : exp (ln (1 / 2)) = 1 / 2) by (apply exp_ln; lra).
  split; [constructor|].
  - apply layout_tree.
  - apply layout_leaves_terminal.
  - apply layout_unfolds. cbn [sums_nonempty case_tree map snd]. repeat (first [split|constructor|discriminate]); cbn; auto.
  - unfold normalised, case_tree, half. cbn [all_sums map snd fst fold_right]. unfold convex, Rsum, wexp. cbn [map fold_right]. rewrite W. repeat split; try lra; repeat constructor.
  - cbn. unfold dist_vars. cbn. repeat split; auto; tauto.
  - cbn. unfold dist_vars. cbn. repeat split; auto; intros v [A B]; intuition congruence.
  - cbn. repeat split; auto; repeat constructor; cbn; try lra; auto; try (do 2 eexists; repeat split; lra); intuition discriminate.
  - split; [cbn; repeat split; auto; repeat constructor|]. split; [|split; [|split; [|split]]].
    + cbn. repeat split; eauto.
    + intros w. cbn. unfold dist_vars. cbn. intuition (subst; auto; try discriminate).
    + intros w. cbn. unfold dist_vars. cbn. intuition (subst; auto; try discriminate).
    + cbn. repeat split; auto; discriminate.
    + cbn. repeat split; auto; try discriminate; intros _ k Hk; intuition (subst; reflexivity).
Qed.

Print Assumptions C81_marginal_partial.
Print Assumptions C81_continuous_partial.
Print Assumptions C81_discrete_partial.
Print Assumptions C81_unsimplified.
Print Assumptions C81_none.
Print Assumptions C81_fitted_partial.
Print Assumptions C81_refuted.
