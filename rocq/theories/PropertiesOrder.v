(** * C01, C02: exactly when a one-pass query answers, and that a fresh circuit never answers wrongly *)
From Coq Require Import List Arith Bool Lia Reals Lra Sorting.Sorted.
From Verif Require Import Num Graph GraphFacts Spec SpecFacts Circuit EvalFacts VarFacts PropertiesQuery.
Import ListNotations.
Local Set Bullet Behavior "Strict Subproofs".
Local Open Scope R_scope.

(** The order of evaluation (last breadth-first layer first) visits the children of every unit before the unit. *)
Definition children_first {D} (g : graph D) : Prop :=
  exists order, bottom_up g = Some order /\ topo_up g order.

Lemma rev_layers_NoDup (ls : list (list id)) : NoDup (concat ls) -> NoDup (concat (rev ls)).
Proof.
  intros H. assert (P : Permutation.Permutation (concat ls) (concat (rev ls))); [|eapply Permutation.Permutation_NoDup; eauto].
  clear. induction ls as [|l ls IH]; [constructor|]. cbn [rev concat]. rewrite concat_app. cbn [concat]. rewrite app_nil_r.
  etransitivity; [apply Permutation.Permutation_app_comm|]. now apply Permutation.Permutation_app_tail.
Qed.

Section Pass.
Context {D V : Type} (lf : D -> option V) (sumf : list (num * V) -> option V) (prodf : list V -> option V).
Notation tev := (tev lf sumf prodf).

Lemma run_pass_ordered (g : graph D) r t v st :
  wf g -> leaves_terminal g -> root g = Some r -> children_first g -> unfolds g r t -> tev t = Some v ->
  exists st', run_pass lf sumf prodf g st = Some (v, st').
Proof.
  intros Hwf Hlt Hr [order [Ho Ht]] Hu Hv. destruct (bottom_up_spec g r Hwf Hr) as [ls [Hls [Hb _]]].
  rewrite Hb in Ho. injection Ho as <-.
  assert (Hin : forall x, In x (concat (rev ls)) <-> reach g r x).
  { intros x. rewrite concat_rev_In. now apply layers_from_In. }
  destruct (eval_order_correct lf sumf prodf g (concat (rev ls)) st) as [st' [H1 [H2 H3]]]; auto.
  - apply rev_layers_NoDup. eapply layers_from_NoDup; eauto.
  - intros u Hu'. apply Hin in Hu'. eapply reach_unfolds; eauto. congruence.
  - exists st'. unfold run_pass. rewrite Hr, Hb, H1, (H2 r t), Hv; auto. apply Hin, reach_refl.
Qed.

Lemma mapM_all {A B} (f : A -> option B) l bs : mapM f l = Some bs -> forall a, In a l -> f a <> None.
Proof.
  intros H a Ha. apply mapM_Forall2 in H. induction H as [|x b l bs H _ IH]; [destruct Ha|]. destruct Ha as [<-|Ha]; auto. congruence.
Qed.

Lemma eval_unit_reads (g : graph D) (st : store V) u v : leaves_terminal g -> eval_unit lf sumf prodf g st u = Some v ->
  forall w, In w (subcircuits g u) -> st w <> None.
Proof.
  intros Hlt H w Hw. unfold subcircuits in Hw. apply in_map_iff in Hw. destruct Hw as [e [<- He]].
  unfold eval_unit in H. destruct (node_kind g u) as [[d| |]|] eqn:Ek; try discriminate.
  - exfalso. apply out_edges_In in He. destruct He as [He Es]. apply (Hlt e d He). now rewrite Es.
  - destruct (mapM _ (out_edges g u)) as [l|] eqn:Em; [|discriminate].
    pose proof (mapM_all _ _ _ Em e He) as X. cbn beta in X. destruct (e_lw e), (st (e_dst e)); congruence.
  - destruct (mapM _ (out_edges g u)) as [l|] eqn:Em; [|discriminate].
    exact (mapM_all _ _ _ Em e He).
Qed.

(** A pass over a fresh store succeeds only along an order that has the children first. *)
Lemma run_pass_fresh (g : graph D) res : leaves_terminal g -> run_pass lf sumf prodf g empty_store = Some res -> children_first g.
Proof.
  intros Hlt H. unfold run_pass in H. destruct (root g); [|discriminate].
  destruct (bottom_up g) as [order|] eqn:Hb; [|discriminate].
  destruct (eval_order lf sumf prodf g order empty_store) as [st'|] eqn:He; [|discriminate]. clear H.
  exists order. split; auto.
  assert (M : forall post pre st0, (forall w, st0 w <> None -> In w pre) ->
            eval_order lf sumf prodf g post st0 = Some st' ->
            forall a u b, post = a ++ u :: b -> forall w, In w (subcircuits g u) -> In w (pre ++ a)).
  { induction post as [|x post IH]; intros pre st0 Hd Hev a u b Hab w Hw; [destruct a; discriminate|].
    unfold eval_order in Hev. cbn [foldM] in Hev. destruct (eval_unit lf sumf prodf g st0 x) as [vx|] eqn:Ex; [|discriminate].
    destruct a as [|y a]; cbn [app] in Hab; injection Hab as Hx Hpost.
    - subst x. rewrite app_nil_r. apply Hd. exact (eval_unit_reads g st0 u vx Hlt Ex w Hw).
    - subst y. replace (pre ++ x :: a) with ((pre ++ [x]) ++ a) by (now rewrite <- app_assoc).
      apply (IH (pre ++ [x]) (upd st0 x vx)) with (u := u) (b := b); auto.
      intros z Hz. apply in_app_iff. destruct (Nat.eq_dec z x) as [->|Hne]; [right; now left|].
      left. apply Hd. now rewrite upd_other in Hz by auto. }
  intros pre u post Ho w Hw. change (In w ([] ++ pre)). eapply M; eauto. intros z Hz. now unfold empty_store in Hz.
Qed.
End Pass.

(** ** The layers hold the units by their distance to the root *)

(** There is a path of [n] edges from [r] to the unit. *)
Inductive path_of_length {D} (g : graph D) (r : id) : nat -> id -> Prop :=
| path_here : path_of_length g r 0 r
| path_edge : forall n e, path_of_length g r n (e_src e) -> In e (g_edges g) -> path_of_length g r (S n) (e_dst e).

Definition distance {D} (g : graph D) r (n : nat) (u : id) : Prop :=
  path_of_length g r n u /\ forall m, path_of_length g r m u -> (n <= m)%nat.

Lemma bfs_distance {D} (g : graph D) r : forall fuel k cur vis ls, bfs_loop g fuel cur vis = Some ls ->
  (forall x, In x cur <-> distance g r k x) ->
  (forall x m, (m <= k)%nat -> path_of_length g r m x -> In x vis) ->
  (forall x, In x vis -> exists m, (m <= k)%nat /\ path_of_length g r m x) ->
  forall j x, In x (nth j ls []) -> distance g r (k + j) x.
Proof.
  induction fuel as [|f IH]; intros k cur vis ls H Hc Hv1 Hv2 j x Hx.
  - destruct cur; simpl in H; [|discriminate]. injection H as <-. destruct j; destruct Hx.
  - destruct cur as [|c cur]; [simpl in H; injection H as <-; destruct j; destruct Hx|].
    rewrite bfs_loop_step in H by congruence.
    destruct (expand_layer g (c :: cur) vis []) as [vis' next] eqn:E. simpl in H.
    destruct (bfs_loop g f next vis') as [ls'|] eqn:Hb; [|discriminate]. injection H as <-.
    destruct j as [|j].
    + cbn [nth] in Hx. rewrite Nat.add_0_r. now apply Hc.
    + cbn [nth] in Hx. replace (k + S j)%nat with (S k + j)%nat by lia.
      apply expand_layer_spec in E. destruct E as [new [-> [-> [_ [Hnew Hall]]]]]. cbn [app] in *.
      assert (Hpath : forall y, In y new -> path_of_length g r (S k) y).
      { intros y Hy. destruct (Hnew y Hy) as [_ [u [Hu Hs]]]. apply subcircuits_In in Hs. destruct Hs as [e [He [Es <-]]].
        apply path_edge; auto. rewrite Es. apply (proj1 (Hc u) Hu). }
      assert (Hsucc : forall y, path_of_length g r (S k) y -> In y (rev new ++ vis)).
      { intros y Hy. inversion Hy as [|n e Hp He]; subst.
        destruct (in_dec Nat.eq_dec (e_src e) (c :: cur)) as [Hin|Hout].
        - apply (Hall (e_src e)); auto. apply subcircuits_In. exists e. auto.
        - apply in_app_iff. right.
          assert (Hshort : exists m, (m < k)%nat /\ path_of_length g r m (e_src e)).
          { destruct (Classical_Prop.classic (exists m, (m < k)%nat /\ path_of_length g r m (e_src e))) as [?|Hno]; auto.
            exfalso. apply Hout, Hc. split; auto. intros m Hm. destruct (le_lt_dec k m) as [?|Hlt]; auto. exfalso. eauto. }
          destruct Hshort as [m [Hm Hpm]]. apply (Hv1 _ (S m)); [lia|]. now apply path_edge. }
      apply (IH (S k) new (rev new ++ vis) ls' Hb); auto.
      * intros y. split.
        -- intros Hy. split; [now apply Hpath|]. intros m Hm. destruct (le_lt_dec (S k) m) as [?|Hlt]; auto.
           exfalso. apply (proj1 (Hnew y Hy)). apply (Hv1 y m); auto. lia.
        -- intros [Hp Hmin]. pose proof (Hsucc y Hp) as Hi. apply in_app_iff in Hi. destruct Hi as [Hi|Hi]; [now apply in_rev in Hi|].
           destruct (Hv2 y Hi) as [m [Hm Hpm]]. specialize (Hmin m Hpm). lia.
      * intros y m Hm Hp. destruct (Nat.eq_dec m (S k)) as [->|Hne]; [now apply Hsucc|].
        apply in_app_iff. right. apply (Hv1 y m); auto. lia.
      * intros y Hy. apply in_app_iff in Hy. destruct Hy as [Hy|Hy].
        -- apply in_rev in Hy. exists (S k). split; auto.
        -- destruct (Hv2 y Hy) as [m [Hm Hp]]. exists m. split; auto.
Qed.

Lemma layers_distance {D} (g : graph D) r ls : layers_from g r = Some ls ->
  forall j x, In x (nth j ls []) -> distance g r j x.
Proof.
  unfold layers_from. destruct (has_node g r); [|discriminate]. intros H j x Hx.
  apply (bfs_distance g r _ 0%nat _ _ _ H); auto.
  - intros y. split.
    + intros [<-|[]]. split; [constructor|intros; lia].
    + intros [Hp _]. inversion Hp; subst. now left.
  - intros y m Hm Hp. assert (m = 0%nat) by lia. subst m. inversion Hp; subst. now left.
  - intros y [<-|[]]. exists 0%nat. split; [lia|constructor].
Qed.

Lemma in_layer (ls : list (list id)) x : In x (concat ls) -> exists j, In x (nth j ls []).
Proof.
  induction ls as [|l ls IH]; cbn [concat]; [intros []|]. intros H. apply in_app_iff in H. destruct H as [H|H].
  - now exists 0%nat.
  - destruct (IH H) as [j Hj]. now exists (S j).
Qed.

Lemma split_unique {A} (u : A) : forall l1 l2 m1 m2, NoDup (l1 ++ u :: m1) -> l1 ++ u :: m1 = l2 ++ u :: m2 -> l1 = l2.
Proof.
  induction l1 as [|a l1 IH]; intros l2 m1 m2 Hn H; destruct l2 as [|b l2]; auto; cbn [app] in *.
  - injection H as -> H. exfalso. subst m1. inversion Hn as [|? ? Hni _]; subst. apply Hni. apply in_app_iff. right. now left.
  - injection H as -> H. exfalso. inversion Hn as [|? ? Hni _]; subst. apply Hni. apply in_app_iff. right. now left.
  - injection H as -> H. f_equal. inversion Hn; subst. eapply IH; eauto.
Qed.

Lemma shallower_later (ls : list (list id)) i j u v pre post : NoDup (concat (rev ls)) ->
  In v (nth i ls []) -> In u (nth j ls []) -> (i < j)%nat -> concat (rev ls) = pre ++ u :: post -> ~ In v pre.
Proof.
  intros Hn Hv Hu Hij Ho Hp.
  assert (Hj : (j < length ls)%nat). { destruct (le_lt_dec (length ls) j) as [Hl|]; auto. rewrite nth_overflow in Hu by auto. destruct Hu. }
  destruct (nth_split ls [] Hj) as (A & C & E & L). set (Lj := nth j ls []) in *.
  assert (HvA : In v (concat (rev A))).
  { apply concat_rev_In. rewrite E, app_nth1 in Hv by lia. apply in_concat. exists (nth i A []). split; auto. apply nth_In. lia. }
  assert (Eo : concat (rev ls) = concat (rev C) ++ Lj ++ concat (rev A)).
  { rewrite E, rev_app_distr. cbn [rev]. rewrite !concat_app. cbn [concat]. now rewrite app_nil_r, <- app_assoc. }
  destruct (in_split u Lj Hu) as (L1 & L2 & EL).
  assert (Es : concat (rev ls) = (concat (rev C) ++ L1) ++ u :: (L2 ++ concat (rev A))).
  { rewrite Eo, EL, <- !app_assoc. reflexivity. }
  rewrite Es in Hn, Ho. pose proof (split_unique u _ _ _ _ Hn Ho) as Epre. rewrite <- Epre in Hp.
  apply in_split in Hp. destruct Hp as (p1 & p2 & Ep). rewrite Ep in Hn. rewrite <- app_assoc in Hn. cbn [app] in Hn.
  apply NoDup_remove_2 in Hn. apply Hn. rewrite !in_app_iff. right. right. right. apply in_app_iff. now right.
Qed.

(** ** The exact condition *)

Section Exact.
Context {D : Type} (dvars : D -> list nat).

(** For every circuit, shared units or not, of any depth: asked for the first time, the log likelihood is answered exactly
    when the evaluation order has the children first, and then the answer is right, also after any other queries. *)
Theorem C01_exact dll (g : graph D) r t (x : nat -> R) :
  wf g -> leaves_terminal g -> root g = Some r -> unfolds g r t -> smooth dvars t ->
  exists vars, circuit_variables dvars g = Some vars /\
    (log_likelihood dvars dll g (map x vars) empty_store <> None <-> children_first g) /\
    (children_first g -> forall st, exists st', log_likelihood dvars dll g (map x vars) st =
       Some (nlog (semN (fun d => nexp (dll d (map x (sset_of (dvars d))))) t), st')).
Proof.
  intros Hwf Hlt Hr Ht Hs. destruct (circuit_variables_spec dvars g r t Hr Ht Hs) as [vars [Hv1 [Hv2 Hv3]]].
  exists vars. split; auto.
  assert (Hok : children_first g -> forall st, exists st', log_likelihood dvars dll g (map x vars) st =
       Some (nlog (semN (fun d => nexp (dll d (map x (sset_of (dvars d))))) t), st')).
  { intros Hc st. unfold log_likelihood. rewrite Hv1.
    set (lf := fun d : D => match select_columns vars (map x vars) (sset_of (dvars d)) with
               | Some cs => Some (dll d cs) | None => None end).
    destruct (tev_log_forward lf (fun d => nexp (dll d (map x (sset_of (dvars d))))) t) as [v [Hv Hn]].
    - eapply unfolds_sums_nonempty; eauto.
    - eapply all_leaves_impl; [|apply (all_leaves_mentions dvars t)]. simpl. intros d Hd.
      unfold lf. rewrite select_columns_spec.
      + eexists. split; reflexivity.
      + intros w Hw. apply Hv3, Hd. now apply sset_of_In.
    - destruct (run_pass_ordered lf sum_log_forward prod_log_forward g r t v st) as [st' H1]; auto.
      exists st'. rewrite H1, <- Hn. now rewrite nlog_nexp. }
  split; auto. split.
  - intros H. unfold log_likelihood in H. rewrite Hv1 in H.
    destruct (run_pass _ _ _ g empty_store) as [res|] eqn:E; [|congruence]. eapply run_pass_fresh; eauto.
  - intros Hc. destruct (Hok Hc empty_store) as [st' ->]. discriminate.
Qed.

(** Hence a circuit that was never asked before never gives a wrong number: it gives the right one or raises. *)
Theorem C01_fresh_sound dll (g : graph D) r t (x : nat -> R) vars ll st' :
  wf g -> leaves_terminal g -> root g = Some r -> unfolds g r t -> smooth dvars t -> circuit_variables dvars g = Some vars ->
  log_likelihood dvars dll g (map x vars) empty_store = Some (ll, st') ->
  ll = nlog (semN (fun d => nexp (dll d (map x (sset_of (dvars d))))) t).
Proof.
  intros Hwf Hlt Hr Ht Hs Hv H. destruct (C01_exact dll g r t x Hwf Hlt Hr Ht Hs) as (vars' & E & H1 & H2).
  rewrite Hv in E. injection E as <-. destruct (H2 (proj1 H1 ltac:(congruence)) empty_store) as [st2 H3]. congruence.
Qed.

Theorem C02_exact (dprob : D -> option num) (g : graph D) r t val :
  wf g -> leaves_terminal g -> root g = Some r -> unfolds g r t -> all_leaves (fun d => dprob d = Some (val d)) t ->
  (probability_of_simple_event dprob g empty_store <> None <-> children_first g) /\
  (children_first g -> forall st, exists st', probability_of_simple_event dprob g st = Some (semN val t, st')).
Proof.
  intros Hwf Hlt Hr Ht Hval.
  assert (Hok : children_first g -> forall st, exists st', probability_of_simple_event dprob g st = Some (semN val t, st')).
  { intros Hc st. apply (run_pass_ordered dprob sum_forward prod_forward g r t (semN val t) st); auto. now apply tev_leaf_ext. }
  split; auto. split.
  - intros H. unfold probability_of_simple_event in H.
    destruct (run_pass _ _ _ g empty_store) as [res|] eqn:E; [|congruence]. eapply run_pass_fresh; eauto.
  - intros Hc. destruct (Hok Hc empty_store) as [st' ->]. discriminate.
Qed.

Theorem C02_cdf_exact dcdf (g : graph D) r t (x : nat -> R) val :
  wf g -> leaves_terminal g -> root g = Some r -> unfolds g r t -> smooth dvars t ->
  all_leaves (fun d => dcdf d (map x (sset_of (dvars d))) = Some (val d)) t ->
  exists vars, circuit_variables dvars g = Some vars /\
    (cdf dvars dcdf g (map x vars) empty_store <> None <-> children_first g) /\
    (children_first g -> forall st, exists st', cdf dvars dcdf g (map x vars) st = Some (semN val t, st')).
Proof.
  intros Hwf Hlt Hr Ht Hs Hval. destruct (circuit_variables_spec dvars g r t Hr Ht Hs) as [vars [Hv1 [Hv2 Hv3]]].
  exists vars. split; auto.
  assert (Hok : children_first g -> forall st, exists st', cdf dvars dcdf g (map x vars) st = Some (semN val t, st')).
  { intros Hc st. unfold cdf. rewrite Hv1.
    set (lf := fun d : D => match select_columns vars (map x vars) (sset_of (dvars d)) with
               | Some cs => dcdf d cs | None => None end).
    apply (run_pass_ordered lf sum_forward prod_forward g r t (semN val t) st Hwf Hlt Hr Hc Ht).
    apply tev_leaf_ext. eapply all_leaves_impl; [|apply (all_leaves_and _ _ _ (all_leaves_mentions dvars t) Hval)].
    simpl. intros d [Hd E]. unfold lf. rewrite select_columns_spec; auto. intros w Hw. apply Hv3, Hd. now apply sset_of_In. }
  split; auto. split.
  - intros H. unfold cdf in H. rewrite Hv1 in H.
    destruct (run_pass _ _ _ g empty_store) as [res|] eqn:E; [|congruence]. eapply run_pass_fresh; eauto.
  - intros Hc. destruct (Hok Hc empty_store) as [st' ->]. discriminate.
Qed.

(** In terms of paths: as soon as one unit has a child that is nearer to the root than the unit itself, every fresh query
    raises, whatever the leaves compute. *)
Theorem C01_shallower_child_raises dll (g : graph D) r e n row :
  wf g -> leaves_terminal g -> root g = Some r -> In e (g_edges g) -> reach g r (e_src e) ->
  path_of_length g r n (e_dst e) -> (forall m, path_of_length g r m (e_src e) -> (n < m)%nat) ->
  log_likelihood dvars dll g row empty_store = None.
Proof.
  intros Hwf Hlt Hr He Hre Hn Hm. unfold log_likelihood. destruct (circuit_variables dvars g) as [vars|]; auto.
  destruct (run_pass _ _ _ g empty_store) as [res|] eqn:E; auto. exfalso.
  apply run_pass_fresh in E; auto. destruct E as [order [Ho Ht]].
  destruct (bottom_up_spec g r Hwf Hr) as [ls [Hls [Hb _]]]. rewrite Hb in Ho. injection Ho as <-.
  destruct (in_layer ls (e_src e)) as [j Hj]; [apply (layers_from_In g r ls Hls); auto|].
  destruct (in_layer ls (e_dst e)) as [i Hi]; [apply (layers_from_In g r ls Hls); eapply reach_step; eauto|].
  destruct (layers_distance g r ls Hls j _ Hj) as [Pj _]. destruct (layers_distance g r ls Hls i _ Hi) as [_ Mi].
  assert (Hij : (i < j)%nat) by (specialize (Hm j Pj); specialize (Mi n Hn); lia).
  assert (Hin : In (e_src e) (concat (rev ls))) by (apply concat_rev_In, (layers_from_In g r ls Hls); auto).
  apply in_split in Hin. destruct Hin as (pre & post & Eo).
  refine (shallower_later ls i j _ _ pre post _ Hi Hj Hij Eo _).
  - apply rev_layers_NoDup. eapply layers_from_NoDup; eauto.
  - apply (Ht pre (e_src e) post Eo). apply subcircuits_In. exists e. auto.
Qed.
End Exact.

(** ** Cases *)

(** A circuit where one unit is reached along paths of one and of two edges, and which is answered nevertheless: the
    children of the root are evaluated in the order in which they were attached, and the nearer one was attached first. *)
Definition lucky : graph unit :=
  mkGraph [(0, USum); (1, ULeaf tt); (2, USum)]%nat
    [mkEdge 0 1 (Some (Fin (ln (1/2)))); mkEdge 0 2 (Some (Fin (ln (1/2)))); mkEdge 2 1 (Some (Fin 0))]%nat.

Definition lucky_tree : pc unit := PSum [(Fin (ln (1/2)), PLeaf tt); (Fin (ln (1/2)), PSum [(Fin 0, PLeaf tt)])].

Example lucky_children_first : children_first lucky /\ ~ graded lucky 0%nat.
Proof.
  split.
  - exists [1; 2; 0]%nat. split; [reflexivity|]. intros pre u post H.
    destruct pre as [|a [|b [|c [|d pre]]]]; cbn [app] in H; try discriminate.
    + injection H as <- _. cbn. tauto.
    + injection H as <- <- _. cbn. tauto.
    + injection H as <- <- <- _. cbn. tauto.
  - intros [lv [H0 H]].
    assert (R2 : reach lucky 0%nat 2%nat).
    { apply (reach_step _ _ 0%nat (mkEdge 0 2 (Some (Fin (ln (1/2)))))%nat); [apply reach_refl|cbn; tauto|reflexivity]. }
    pose proof (H (mkEdge 0 1 (Some (Fin (ln (1/2)))))%nat ltac:(cbn; tauto) (reach_refl _ _)) as H1.
    pose proof (H (mkEdge 0 2 (Some (Fin (ln (1/2)))))%nat ltac:(cbn; tauto) (reach_refl _ _)) as H2.
    pose proof (H (mkEdge 2 1 (Some (Fin 0)))%nat ltac:(cbn; tauto) R2) as H3.
    cbn in H1, H2, H3. lia.
Qed.

Lemma lucky_ok : wf lucky /\ leaves_terminal lucky /\ root lucky = Some 0%nat /\ unfolds lucky 0%nat lucky_tree.
Proof.
  split; [|split; [|split]].
  - constructor; cbn.
    + repeat constructor; cbn; intuition lia.
    + repeat constructor; cbn; intuition congruence.
    + intros e H. repeat destruct H as [<-|H]; cbn; tauto.
    + intros e H. repeat destruct H as [<-|H]; cbn; tauto.
  - intros e d H. repeat destruct H as [<-|H]; cbn; try discriminate. destruct H.
  - reflexivity.
  - unfold lucky_tree. unf.
Qed.

(** Its probability is that of its only leaf, whatever was asked before. *)
Example C02_exact_case p st : exists st', probability_of_simple_event (fun _ => Some (Fin p)) lucky st = Some (Fin p, st').
Proof.
  destruct lucky_ok as [H1 [H2 [H3 H4]]].
  destruct (proj2 (C02_exact (fun _ => Some (Fin p)) lucky 0%nat lucky_tree (fun _ => Fin p) H1 H2 H3 H4 ltac:(cbn; tauto))
              (proj1 lucky_children_first) st) as [st' ->].
  exists st'. f_equal. f_equal. cbn. rewrite exp_ln by lra. rewrite exp_0. f_equal. lra.
Qed.

(** The circuit with the shortcut of C01: unit 2 has distance 2, its child 3 has distance 1. *)
Example C01_shallower_case dll row : log_likelihood (fun _ => [0%nat]) dll shortcut row empty_store = None.
Proof.
  apply (C01_shallower_child_raises (fun _ => [0%nat]) dll shortcut 0%nat (mkEdge 2 3 (Some (Fin 0)))%nat 1%nat row).
  - exact shortcut_wf.
  - exact shortcut_leaves.
  - reflexivity.
  - cbn. tauto.
  - apply (reach_step _ _ 1%nat (mkEdge 1 2 (Some (Fin 0)))%nat); [|cbn; tauto|reflexivity].
    apply (reach_step _ _ 0%nat (mkEdge 0 1 (Some (Fin (ln (1/2)))))%nat); [apply reach_refl|cbn; tauto|reflexivity].
  - apply (path_edge shortcut 0%nat 0%nat (mkEdge 0 3 (Some (Fin (ln (1/2)))))%nat); [constructor|cbn; tauto].
  - intros m H. cbn [e_src] in H. inversion H as [|n e Hp He Hn Hd]; subst.
    cbn in He. destruct He as [<-|[<-|[<-|[<-|[]]]]]; cbn in Hd; try discriminate.
    cbn in Hp. inversion Hp; subst. lia.
Qed.

Print Assumptions C01_exact.
Print Assumptions C01_fresh_sound.
Print Assumptions C02_exact.
Print Assumptions C02_cdf_exact.
Print Assumptions C01_shallower_child_raises.
