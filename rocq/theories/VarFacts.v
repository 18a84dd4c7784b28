(** * VarFacts: variables of units, column selection, and the query theorems for circuits *)
From Coq Require Import List Arith Bool Lia Reals Lra Sorting.Sorted.
From Verif Require Import Num Graph GraphFacts Spec SpecFacts Circuit EvalFacts.
Import ListNotations.

Section Height.
Context {D : Type}.

Lemma fold_plus_In (l : list nat) x : In x l -> x <= fold_right plus 0 l.
Proof. induction l; simpl; [tauto|]. intros [<-|H]; [lia|]. apply IHl in H. lia. Qed.

Lemma fold_max_In (l : list nat) x : In x l -> x <= fold_right max 0 l.
Proof. induction l; simpl; [tauto|]. intros [<-|H]; [lia|]. apply IHl in H. lia. Qed.

Lemma fold_max_attained (l : list nat) : l <> [] -> In (fold_right max 0 l) l.
Proof.
  induction l as [|a l IH]; [congruence|]. intros _. simpl. destruct l as [|b l].
  - left. simpl. lia.
  - destruct (Nat.max_spec a (fold_right max 0 (b :: l))) as [[_ ->]|[_ ->]]; [right; apply IH; congruence|now left].
Qed.

(** A unit's tree is at most as high as the circuit has units. *)
Lemma unfolds_path (g : graph D) u t : unfolds g u t ->
  exists p, length p = height t /\ NoDup p /\
    forall x, In x p -> In x (node_ids g) /\ exists t', unfolds g x t' /\ size t' <= size t.
Proof.
  intros Ht. assert (Hself := Ht). revert Hself. revert u t Ht.
  refine (unfolds_ind' g _ _ _ _); [intros u d Hk|intros u ts Hk Hne HF|intros u ts Hk HF]; intros Hself.
  - exists [u]. simpl. repeat split; auto.
    + repeat constructor. simpl. tauto.
    + destruct H as [<-|[]]. now apply node_kind_ids in Hk.
    + destruct H as [<-|[]]. eexists; split; eauto.
  - assert (Hmax : In (fold_right max 0 (map (fun wt : num * pc D => height (snd wt)) ts)) (map (fun wt => height (snd wt)) ts)).
    { apply fold_max_attained. destruct ts; [|discriminate]. inversion HF. congruence. }
    apply in_map_iff in Hmax. destruct Hmax as [[w t] [Hh Hin]]. simpl in Hh.
    assert (Hc : exists c, unfolds g c t /\ (unfolds g c t -> exists p, length p = height t /\ NoDup p /\
      forall x, In x p -> In x (node_ids g) /\ exists t', unfolds g x t' /\ size t' <= size t)).
    { clear - HF Hin. induction HF as [|e wt es ts [_ [H1 H2]] HF IH]; [destruct Hin|].
      destruct Hin as [->|Hin]; auto. exists (e_dst e). simpl in *. split; auto. }
    destruct Hc as [c [Hc1 Hc2]]. destruct (Hc2 Hc1) as [p [Hp1 [Hp2 Hp3]]].
    assert (Hsz : size t < size (PSum ts)).
    { simpl. apply Nat.lt_succ_r. apply fold_plus_In. apply in_map_iff. exists (w, t). auto. }
    exists (u :: p). repeat split.
    + simpl length. rewrite Hp1. cbn [height]. rewrite <- Hh. reflexivity.
    + constructor; auto. intros Hu. apply Hp3 in Hu. destruct Hu as [_ [t' [Ht' Hs']]].
      rewrite <- (unfolds_det g u _ Hself _ Ht') in Hs'. lia.
    + destruct H as [<-|H]; [now apply node_kind_ids in Hk|]. now apply Hp3.
    + destruct H as [<-|H]; [eexists; split; eauto|]. apply Hp3 in H. destruct H as [_ [t' [H1 H2]]].
      exists t'. split; auto. lia.
  - destruct ts as [|t0 ts0].
    { exists [u]. simpl. repeat split; auto.
      + repeat constructor. simpl. tauto.
      + destruct H as [<-|[]]. now apply node_kind_ids in Hk.
      + destruct H as [<-|[]]. eexists; split; eauto. }
    remember (t0 :: ts0) as ts eqn:Ets.
    assert (Hmax : In (fold_right max 0 (map height ts)) (map (@height D) ts)).
    { apply fold_max_attained. subst. discriminate. }
    apply in_map_iff in Hmax. destruct Hmax as [t [Hh Hin]].
    assert (Hc : exists c, unfolds g c t /\ (unfolds g c t -> exists p, length p = height t /\ NoDup p /\
      forall x, In x p -> In x (node_ids g) /\ exists t', unfolds g x t' /\ size t' <= size t)).
    { clear - HF Hin. induction HF as [|e wt es ts [H1 H2] HF IH]; [destruct Hin|].
      destruct Hin as [->|Hin]; auto. exists (e_dst e). simpl in *. split; auto. }
    destruct Hc as [c [Hc1 Hc2]]. destruct (Hc2 Hc1) as [p [Hp1 [Hp2 Hp3]]].
    assert (Hsz : size t < size (PProd ts)).
    { simpl. apply Nat.lt_succ_r. apply fold_plus_In. apply in_map_iff. exists t. auto. }
    exists (u :: p). repeat split.
    + simpl length. rewrite Hp1. cbn [height]. rewrite <- Hh. reflexivity.
    + constructor; auto. intros Hu. apply Hp3 in Hu. destruct Hu as [_ [t' [Ht' Hs']]].
      rewrite <- (unfolds_det g u _ Hself _ Ht') in Hs'. lia.
    + destruct H as [<-|H]; [now apply node_kind_ids in Hk|]. now apply Hp3.
    + destruct H as [<-|H]; [eexists; split; eauto|]. apply Hp3 in H. destruct H as [_ [t' [H1 H2]]].
      exists t'. split; auto. lia.
Qed.

Lemma height_bound (g : graph D) u t : unfolds g u t -> height t <= length (g_nodes g).
Proof.
  intros H. destruct (unfolds_path g u t H) as [p [<- [Hnd Hp]]].
  replace (length (g_nodes g)) with (length (node_ids g)) by (unfold node_ids; apply map_length).
  apply NoDup_incl_length; auto. intros x Hx. now apply Hp.
Qed.

(** Every valid circuit has a meaning: acyclic graphs unfold. *)
Lemma unfolds_total (g : graph D) : wf g -> acyclic g ->
  (forall u, node_kind g u = Some USum -> out_edges g u <> []) ->
  (forall e, In e (g_edges g) -> node_kind g (e_src e) = Some USum -> exists w, e_lw e = Some w) ->
  forall u, In u (node_ids g) -> exists t, unfolds g u t.
Proof.
  intros Hwf [rk Hrk] Hne Hlw.
  assert (H : forall n u, rk u < n -> In u (node_ids g) -> exists t, unfolds g u t).
  { induction n as [|n IH]; intros u Hn Hu; [lia|].
    destruct (node_kind_complete g u Hu) as [k Hk].
    assert (Hch : forall e, In e (out_edges g u) -> exists t, unfolds g (e_dst e) t).
    { intros e He. apply out_edges_In in He. destruct He as [He <-]. apply IH.
      - specialize (Hrk e He). lia.
      - now apply (wf_dst g Hwf). }
    destruct k as [d| |].
    - exists (PLeaf d). apply unf_leaf; auto.
    - assert (Hts : exists ts, Forall2 (fun e wt => e_lw e = Some (fst wt) /\ unfolds g (e_dst e) (snd wt)) (out_edges g u) ts).
      { assert (Hl : forall e, In e (out_edges g u) -> exists w, e_lw e = Some w).
        { intros e He. apply out_edges_In in He. destruct He as [He Hs]. apply Hlw; auto. now rewrite Hs. }
        clear - Hch Hl. induction (out_edges g u) as [|e l IHl]; [exists []; constructor|].
        destruct IHl as [ts Hts]; [intros; apply Hch; now right|intros; apply Hl; now right|].
        destruct (Hch e (or_introl eq_refl)) as [t Ht]. destruct (Hl e (or_introl eq_refl)) as [w Hw].
        exists ((w, t) :: ts). constructor; auto. }
      destruct Hts as [ts Hts]. exists (PSum ts). apply unf_sum; auto.
    - assert (Hts : exists ts, Forall2 (fun e t => unfolds g (e_dst e) t) (out_edges g u) ts).
      { clear - Hch. induction (out_edges g u) as [|e l IHl]; [exists []; constructor|].
        destruct IHl as [ts Hts]; [intros; apply Hch; now right|].
        destruct (Hch e (or_introl eq_refl)) as [t Ht]. exists (t :: ts). constructor; auto. }
      destruct Hts as [ts Hts]. exists (PProd ts). apply unf_prod; auto. }
  intros u Hu. eapply H; eauto.
Qed.
End Height.

Section Vars.
Context {D : Type} (dvars : D -> list nat).

Lemma unit_variables_spec (g : graph D) u t : unfolds g u t -> smooth dvars t ->
  forall fuel, height t <= fuel ->
  exists vs, unit_variables dvars g fuel u = Some vs /\ StronglySorted lt vs /\
    forall v, In v vs <-> mentions dvars t v.
Proof.
  intros Ht. revert u t Ht.
  refine (unfolds_ind' g _ _ _ _); [intros u d Hk|intros u ts Hk Hne HF|intros u ts Hk HF]; intros Hs [|f] Hf;
    simpl in Hf; try lia; cbn [unit_variables]; rewrite Hk.
  - eexists. split; [reflexivity|]. split; [apply sset_of_sorted|]. intros v. simpl. apply sset_of_In.
  - inversion HF as [E|e [w t] es ts' [H1 [H2 H3]] HF' E1 E2]; [congruence|]. subst ts.
    unfold subcircuits. rewrite <- E1. simpl map.
    destruct Hs as [Hs1 Hs2]. simpl in Hs2. destruct Hs2 as [Hs2 _]. simpl in Hf.
    destruct (H3 Hs2 f) as [vs [Hv1 [Hv2 Hv3]]]; [simpl; lia|]. exists vs. repeat split; auto.
    + intros Hv. simpl. left. now apply Hv3.
    + intros Hv. apply Hv3. apply Hs1 in Hv. simpl in Hv. tauto.
  - assert (Hm : exists ls, mapM (unit_variables dvars g f) (subcircuits g u) = Some ls /\
       forall v, Exists (fun l => In v l) ls <-> Exists (fun t => mentions dvars t v) ts).
    { cbn [smooth] in Hs. apply fold_and_Forall in Hs. unfold subcircuits. clear Hk.
      induction HF as [|e t es ts [H1 H2] HF IH]; [exists []; split; auto; intros v; split; intros H; inversion H|].
      inversion Hs; subst. simpl in Hf. destruct (H2 H3 f) as [vs [Hv1 [Hv2 Hv3]]]; [simpl; lia|].
      destruct IH as [ls [Hl1 Hl2]]; auto; [lia|]. exists (vs :: ls). simpl. rewrite Hv1, Hl1. split; auto.
      intros v. rewrite !Exists_cons, Hl2, Hv3. tauto. }
    destruct Hm as [ls [Hl1 Hl2]]. rewrite Hl1. eexists. split; [reflexivity|].
    destruct (fold_union_spec ls [] ltac:(constructor)) as [H1 H2]. split; auto.
    intros v. rewrite H2. cbn [mentions]. rewrite fold_or_Exists, Hl2. simpl. tauto.
Qed.

Lemma circuit_variables_spec (g : graph D) r t : root g = Some r -> unfolds g r t -> smooth dvars t ->
  exists vs, circuit_variables dvars g = Some vs /\ StronglySorted lt vs /\ forall v, In v vs <-> mentions dvars t v.
Proof.
  intros Hr Ht Hs. unfold circuit_variables. rewrite Hr. eapply unit_variables_spec; eauto.
  pose proof (height_bound _ _ _ Ht). lia.
Qed.

Lemma var_index_spec vars v : In v vars -> exists i, var_index vars v = Some i /\ nth_error vars i = Some v.
Proof.
  induction vars as [|w vs IH]; simpl; [tauto|]. intros H. destruct (w =? v) eqn:E.
  - apply Nat.eqb_eq in E. subst. exists 0. auto.
  - destruct H as [->|H]; [rewrite Nat.eqb_refl in E; discriminate|].
    destruct (IH H) as [i [-> Hi]]. exists (S i). auto.
Qed.

Lemma select_columns_spec vars (x : nat -> R) own : (forall v, In v own -> In v vars) ->
  select_columns vars (map x vars) own = Some (map x own).
Proof.
  intros H. unfold select_columns. apply mapM_Forall2. induction own as [|v own IH]; simpl; constructor.
  - destruct (var_index_spec vars v) as [i [-> Hi]]; [apply H; now left|]. now rewrite nth_error_map, Hi.
  - apply IH. intros w Hw. apply H. now right.
Qed.

Lemma all_leaves_mentions t : all_leaves (fun d => forall v, In v (dvars d) -> mentions dvars t v) t.
Proof.
  assert (H : forall t (Q : nat -> Prop), (forall v, mentions dvars t v -> Q v) ->
    all_leaves (fun d => forall v, In v (dvars d) -> Q v) t).
  { clear t. induction t as [d|l IH|l IH] using pc_ind'; simpl; intros Q HQ; auto.
    - apply fold_and_Forall. rewrite Forall_forall in *. intros wt Hin. apply IH; auto. intros v Hv. apply HQ.
      apply fold_or_Exists, Exists_exists. eauto.
    - apply fold_and_Forall. rewrite Forall_forall in *. intros wt Hin. apply IH; auto. intros v Hv. apply HQ.
      apply fold_or_Exists, Exists_exists. eauto. }
  apply H. auto.
Qed.
End Vars.

Section QueryTheorems.
Context {D : Type} (dvars : D -> list nat) (dll : D -> list R -> num) (dcdf : D -> list R -> option num).

(** The log-likelihood query on a graded circuit. *)
Theorem log_likelihood_correct (g : graph D) r t (x : nat -> R) st :
  wf g -> leaves_terminal g -> root g = Some r -> graded g r -> unfolds g r t -> smooth dvars t ->
  exists vars, circuit_variables dvars g = Some vars /\ StronglySorted lt vars /\
    (forall v, In v vars <-> mentions dvars t v) /\
    exists ll st', log_likelihood dvars dll g (map x vars) st = Some (ll, st') /\
      nexp ll = semN (fun d => nexp (dll d (map x (sset_of (dvars d))))) t.
Proof.
  intros Hwf Hlt Hr Hg Ht Hs. destruct (circuit_variables_spec dvars g r t Hr Ht Hs) as [vars [Hv1 [Hv2 Hv3]]].
  exists vars. repeat (split; auto); try (apply Hv3).
  unfold log_likelihood. rewrite Hv1.
  set (lf := fun d : D => match select_columns vars (map x vars) (sset_of (dvars d)) with
             | Some cs => Some (dll d cs) | None => None end).
  destruct (tev_log_forward lf (fun d => nexp (dll d (map x (sset_of (dvars d))))) t) as [v [Hv Hn]].
  - eapply unfolds_sums_nonempty; eauto.
  - eapply all_leaves_impl; [|apply (all_leaves_mentions dvars t)]. simpl. intros d Hd.
    unfold lf. rewrite select_columns_spec.
    + eexists. split; reflexivity.
    + intros w Hw. apply Hv3, Hd. now apply sset_of_In.
  - destruct (run_pass_correct lf sum_log_forward prod_log_forward g r t v st) as [st' [H1 _]]; auto.
    exists v, st'. auto.
Qed.

Lemma tev_leaf_ext (lf : D -> option num) (val : D -> num) t :
  all_leaves (fun d => lf d = Some (val d)) t ->
  tev lf sum_forward prod_forward t = Some (semN val t).
Proof.
  intros Hl. rewrite <- tev_forward. induction t as [d|l IH|l IH] using pc_ind'; simpl in *; auto.
  - apply fold_and_Forall in Hl. erewrite mapM_ext; [reflexivity|]. intros wt Hin. rewrite Forall_forall in *.
    simpl. rewrite IH; auto.
  - apply fold_and_Forall in Hl. erewrite mapM_ext; [reflexivity|]. intros wt Hin. rewrite Forall_forall in *. auto.
Qed.

Lemma all_leaves_and (P Q : D -> Prop) t : all_leaves P t -> all_leaves Q t -> all_leaves (fun d => P d /\ Q d) t.
Proof.
  induction t as [d|l IH|l IH] using pc_ind'; simpl; auto; intros H1 H2; apply fold_and_Forall in H1, H2;
    apply fold_and_Forall; rewrite Forall_forall in *; auto.
Qed.

Theorem cdf_correct (g : graph D) r t (x : nat -> R) (val : D -> num) st :
  wf g -> leaves_terminal g -> root g = Some r -> graded g r -> unfolds g r t -> smooth dvars t ->
  all_leaves (fun d => dcdf d (map x (sset_of (dvars d))) = Some (val d)) t ->
  exists vars, circuit_variables dvars g = Some vars /\ StronglySorted lt vars /\
    (forall v, In v vars <-> mentions dvars t v) /\
    exists st', cdf dvars dcdf g (map x vars) st = Some (semN val t, st').
Proof.
  intros Hwf Hlt Hr Hg Ht Hs Hval. destruct (circuit_variables_spec dvars g r t Hr Ht Hs) as [vars [Hv1 [Hv2 Hv3]]].
  exists vars. repeat (split; auto); try (apply Hv3).
  unfold cdf. rewrite Hv1.
  set (lf := fun d : D => match select_columns vars (map x vars) (sset_of (dvars d)) with
             | Some cs => dcdf d cs | None => None end).
  destruct (run_pass_correct lf sum_forward prod_forward g r t (semN val t) st Hwf Hlt Hr Hg Ht) as [st' [H1 _]].
  - apply tev_leaf_ext. eapply all_leaves_impl; [|apply (all_leaves_and _ _ _ (all_leaves_mentions dvars t) Hval)].
    simpl. intros d [Hd E]. unfold lf. rewrite select_columns_spec; auto. intros w Hw. apply Hv3, Hd. now apply sset_of_In.
  - exists st'. auto.
Qed.

Theorem probability_correct (dprob : D -> option num) (val : D -> num) (g : graph D) r t st :
  wf g -> leaves_terminal g -> root g = Some r -> graded g r -> unfolds g r t ->
  all_leaves (fun d => dprob d = Some (val d)) t ->
  exists st', probability_of_simple_event dprob g st = Some (semN val t, st').
Proof.
  intros Hwf Hlt Hr Hg Ht Hval.
  destruct (run_pass_correct dprob sum_forward prod_forward g r t (semN val t) st)
    as [st' [H1 _]]; auto.
  - now apply tev_leaf_ext.
  - exists st'. auto.
Qed.
End QueryTheorems.
