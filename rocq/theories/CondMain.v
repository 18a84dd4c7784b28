(** * CondMain: what conditioning a tree-shaped circuit on a simple event returns *)
From Coq Require Import List Arith Bool Lia Reals Lra Permutation.
From Verif Require Import Num Graph GraphFacts Spec SpecFacts Circuit EvalFacts Simplify SimplifyFacts TreeLocal NormalizeFacts
  Restrict MarginalFacts Conditional ConditionalFacts CondPass.
Import ListNotations.

Section Main.
Context {D : Type}.
Implicit Types g : graph D.

Lemma holds_val val g : (forall u, In u (node_ids g) -> exists t, unfolds g u t) -> holds (Lval val (FN val g)) g.
Proof.
  intros Hall u k Hk. destruct (Hall u) as [t Ht]; [eapply node_kind_ids; eauto|].
  pose proof (the_tree_unfolds _ _ _ Ht) as HT.
  destruct Ht as [u d Hk'|u ts Hk' Hne HF|u ts Hk' HF]; rewrite Hk in Hk'; injection Hk' as ->; simpl; unfold FN at 1; try rewrite HT; simpl.
  - auto.
  - f_equal. clear - HF. induction HF as [|e [w t] es ts [H1 H2] HF IH]; simpl; auto. f_equal; auto. rewrite H1. simpl.
    f_equal. simpl in H2. unfold FN. now rewrite (the_tree_unfolds _ _ _ H2).
  - f_equal. clear - HF. induction HF as [|e t es ts H2 HF IH]; simpl; auto.
    f_equal; auto. unfold FN. now rewrite (the_tree_unfolds _ _ _ H2).
Qed.

(** ** Normalising a tree-shaped circuit *)
Lemma Lscope_dst dvars M x k l l' : map e_dst l = map e_dst l' -> Lscope (D := D) dvars M x k l -> Lscope dvars M x k l'.
Proof.
  intros E [S1 [S2 S3]].
  assert (HI : forall e, In e l -> exists e', In e' l' /\ e_dst e' = e_dst e).
  { intros e He. apply (in_map e_dst) in He. rewrite E in He. apply in_map_iff in He. destruct He as [e' [A B]]. eauto. }
  assert (HI' : forall e, In e l' -> exists e', In e' l /\ e_dst e' = e_dst e).
  { intros e He. apply (in_map e_dst) in He. rewrite <- E in He. apply in_map_iff in He. destruct He as [e' [A B]]. eauto. }
  assert (Hv : forall v, (exists e, In e l /\ M (e_dst e) v) <-> (exists e, In e l' /\ M (e_dst e) v)).
  { intros v. split; intros [e [He Hm]]; [destruct (HI e He) as [e' [A B]]|destruct (HI' e He) as [e' [A B]]]; exists e'; rewrite B; auto. }
  split; [|split].
  - destruct k; simpl in *; auto; intros v; rewrite S1; apply Hv.
  - destruct k; simpl in *; auto. intros e He v Hm. destruct (HI' e He) as [e' [A B]]. rewrite <- B. auto.
  - destruct k; simpl in *; auto. clear - E S3. revert l' E.
    induction S3 as [|a l HA HO IH]; intros [|b l'] E; simpl in E; try discriminate; constructor; injection E as E1 E2; auto.
    clear IH. apply Forall_forall. intros c Hc. apply (in_map e_dst) in Hc. rewrite <- E2 in Hc. apply in_map_iff in Hc. destruct Hc as [c' [A B]].
    rewrite Forall_forall in HA. intros v. unfold disj in HA. specialize (HA c' B v). rewrite <- E1, <- A. exact HA.
Qed.

Lemma normalize_tree g r : tcore g r ->
  exists g', normalize g = Some g' /\ tcore g' r /\ (forall x, node_kind g' x = node_kind g x) /\ holds Lfin g' /\ holds Lnorm g' /\
    (forall dvars M, holds (Lscope dvars M) g -> holds (Lscope dvars M) g').
Proof.
  intros [Ht Hlf Hs Hw]. pose proof Ht as [Hwf [Hac [Hr [Hnd [Hall Htop]]]]].
  assert (Hwo : forall u e, node_kind g u = Some USum -> In e (out_edges g u) -> exists x, e_lw e = Some (Fin x)).
  { intros u e Hk He. apply out_edges_In in He. destruct He as [He Es]. apply Hw; auto. now rewrite Es. }
  destruct (normalize_spec g) as [g' [H1 [H2 [H3 [H4 H5]]]]]; [apply Hwf| |].
  { intros u Hk. specialize (Hs u Hk). specialize (Hwo u).
    assert (Hwo' : forall e, In e (out_edges g u) -> exists x, e_lw e = Some (Fin x)) by auto. clear Hwo. unfold positive_total, weights_of.
    assert (G : exists ws, mapM (fun e : edge => e_lw e) (out_edges g u) = Some ws /\ Forall (fun w => exists x, w = Fin x) ws /\ length ws = length (out_edges g u)).
    { clear Hs. induction (out_edges g u) as [|e l IH]; [exists []; auto|]. destruct IH as [ws [A [B C]]]; [intros; apply Hwo'; now right|].
      destruct (Hwo' e (or_introl eq_refl)) as [x Hx]. exists (Fin x :: ws). split; [|split; [constructor; eauto|simpl; lia]].
      simpl. rewrite Hx. unfold mapM in A |- *. now rewrite A. }
    destruct G as [ws [A [B C]]]. exists ws. split; [auto|split].
    - eapply Forall_impl; [|exact B]. intros w [x ->]. exact I.
    - destruct ws as [|w ws]; [destruct (out_edges g u); [tauto|discriminate]|]. inversion B as [|? ? [x ->] B']; subst. cbn [map Rsum fold_right].
      apply Rplus_lt_le_0_compat; [apply exp_pos|]. apply Rsum_nonneg. apply Forall_map. eapply Forall_impl; [|exact B'].
      intros w' [y ->]. left. apply exp_pos. }
  assert (Hk' : forall x, node_kind g' x = node_kind g x) by (intros x; unfold node_kind; now rewrite H2).
  assert (Hids : node_ids g' = node_ids g) by (unfold node_ids; now rewrite H2).
  assert (Hdst : map e_dst (g_edges g') = map e_dst (g_edges g)).
  { apply (f_equal (map snd)) in H3. rewrite !map_map in H3. exact H3. }
  assert (Hback : forall e', In e' (g_edges g') -> exists e, In e (g_edges g) /\ e_src e = e_src e' /\ e_dst e = e_dst e').
  { intros e' He'. apply (in_map (fun e => (e_src e, e_dst e))) in He'. rewrite H3 in He'. apply in_map_iff in He'. destruct He' as [e [E He]].
    injection E as E1 E2. eauto. }
  assert (Hod : forall u, map e_dst (out_edges g' u) = map e_dst (out_edges g u)).
  { intros u. destruct (node_kind g u) as [k|] eqn:Ek; [destruct k as [d| |]|]; try (rewrite H5; [reflexivity|rewrite Ek; discriminate]).
    destruct (H4 u Ek) as [c [_ [HF _]]]. clear - HF. induction HF as [|e e' l l' [_ [A _]] HF IH]; simpl; auto. f_equal; auto. }
  assert (Hfin : holds Lfin g').
  { intros u k Hk. rewrite Hk' in Hk. destruct k as [d| |]; simpl; auto. destruct (H4 u Hk) as [c [Hc [HF _]]].
    specialize (Hwo u). assert (Hwo' : forall e, In e (out_edges g u) -> exists x, e_lw e = Some (Fin x)) by auto. clear - HF Hwo' Hc.
    induction HF as [|e e' l l' [_ [_ [w [w' [A [B [C E]]]]]]] HF IH]; constructor; [|apply IH; intros; apply Hwo'; now right].
    destruct (Hwo' e (or_introl eq_refl)) as [x Hx]. assert (w = Fin x) by congruence. subst w.
    destruct w'; simpl in C; try tauto; eauto. exfalso. simpl in E. pose proof (exp_pos x).
    assert (0 < exp x / c)%R; [|lra]. unfold Rdiv. apply Rmult_lt_0_compat; auto. now apply Rinv_0_lt_compat. }
  exists g'. split; [auto|]. split; [|split; [auto|split; [auto|split]]].
  - constructor.
    + split; [|split; [|split; [|split; [|split]]]].
      * destruct Hwf. constructor; rewrite ?Hids; auto.
        -- rewrite H3. auto.
        -- intros e' He'. destruct (Hback e' He') as [e [A [B C]]]. rewrite <- B. auto.
        -- intros e' He'. destruct (Hback e' He') as [e [A [B C]]]. rewrite <- C. auto.
      * destruct Hac as [rk Hrk]. exists rk. intros e' He'. destruct (Hback e' He') as [e [A [B C]]]. rewrite <- B, <- C. auto.
      * now rewrite Hids.
      * now rewrite Hdst.
      * intros u. rewrite Hids, Hdst. auto.
      * now rewrite Hdst.
    + intros e' d He'. destruct (Hback e' He') as [e [A [B C]]]. rewrite Hk', <- B. now apply Hlf.
    + intros u Hk. rewrite Hk' in Hk. intros E. apply (Hs u Hk). pose proof (Hod u) as Ho. rewrite E in Ho. simpl in Ho. symmetry in Ho. now apply map_eq_nil in Ho.
    + intros e' He' Hk. specialize (Hfin (e_src e') _ Hk). simpl in Hfin. rewrite Forall_forall in Hfin. apply Hfin. apply out_edges_In. auto.
  - intros u k Hk. rewrite Hk' in Hk. destruct k as [d| |]; simpl; auto. destruct (H4 u Hk) as [c [Hc [_ HS]]]. exact HS.
  - intros dvars M HM u k Hk. rewrite Hk' in Hk. eapply Lscope_dst; [symmetry; apply Hod|]. now apply HM.
Qed.

Lemma norm_back g u t : (forall u, In u (node_ids g) -> exists t, unfolds g u t) -> holds Lfin g -> holds Lnorm g -> unfolds g u t -> normalised t.
Proof.
  intros Hall H1 H2 Hu. apply (mean_back (fun _ => Fin 0) (FN (fun _ => Fin 0) g) g u t); auto.
  intros x k Hk. split; [now apply H1|split; [now apply H2|now apply holds_val]].
Qed.

(** ** Removing units *)
Lemma foldM_remove l : forall g, NoDup l -> (forall x, In x l -> In x (node_ids g)) ->
  foldM (remove_node (D := D)) l g = Some (remove_nodes_from g l).
Proof.
  induction l as [|u l IH]; intros g Hnd Hin; simpl; auto. unfold remove_node at 1.
  assert (Hh : has_node g u = true) by (apply existsb_exists; exists u; split; [apply Hin; now left|apply Nat.eqb_refl]).
  rewrite Hh. inversion Hnd; subst. apply IH; auto. intros x Hx. apply drop_node_ids. split; [apply Hin; now right|]. intros ->. auto.
Qed.

Lemma bottom_up_ids g r : wf g -> acyclic g -> root g = Some r -> exists order, bottom_up g = Some order /\ NoDup order /\ forall u, In u order <-> In u (node_ids g).
Proof.
  intros Hwf Hac Hroot. destruct (bottom_up_spec g r Hwf Hroot) as [ls [Hls [Hbu _]]]. exists (concat (rev ls)). split; auto. split.
  - apply (Permutation_NoDup (l := concat ls)); [|eapply layers_from_NoDup; eauto].
    clear. induction ls as [|l ls IH]; simpl; auto. rewrite concat_app. simpl. rewrite app_nil_r. rewrite IH. apply Permutation_app_comm.
  - intros u. rewrite concat_rev_In, (layers_from_In g r ls Hls). split.
    + intros Hre. pose proof (root_spec _ _ Hroot) as [Hr _]. induction Hre; auto. now apply (wf_dst g Hwf).
    + now apply root_reaches_all.
Qed.

Lemma nsum_zero l : Forall (fun x => x = Fin 0) l -> nsum l = Fin 0.
Proof. intros H. induction H; simpl; auto. subst. cbn. rewrite IHForall. simpl. f_equal. lra. Qed.

Lemma nprod_zero l : Forall is_prob l -> In (Fin 0) l -> nprod l = Fin 0.
Proof.
  intros HF. assert (HP : exists y, nprod l = Fin y).
  { induction HF as [|x l [y [Hy ->]] HF IH]; simpl; eauto. destruct IH as [z ->]. simpl. eauto. }
  induction HF as [|x l [y [Hy ->]] HF IH]; simpl; [tauto|]. intros Hin.
  assert (HP' : exists z, nprod l = Fin z).
  { clear - HF. induction HF as [|x l [y [Hy ->]] HF IH]; simpl; eauto. destruct IH as [z ->]. simpl. eauto. }
  destruct HP' as [z Hz]. destruct Hin as [E|Hin].
  - injection E as ->. rewrite Hz. simpl. f_equal. lra.
  - rewrite (IH (ex_intro _ z Hz) Hin). simpl. f_equal. lra.
Qed.

Variable lcond : D -> option (lres D).
Variable val : D -> num.
Variable dvars : D -> list nat.
Variable Q : D -> Prop.

Lemma semN_prob t : all_leaves (fun d => is_prob (val d)) t -> fin_sums t -> is_prob (semN val t).
Proof.
  unfold fin_sums. induction t as [d|l IH|l IH] using pc_ind'; simpl; auto.
  - intros Ha [Hw Hs]. rewrite fold_and_Forall in *. rewrite Forall_map in Hw. induction IH as [|[w t] l H _ IHl]; simpl; [exists 0%R; split; [lra|auto]|].
    inversion Ha; subst. inversion Hs; subst. inversion Hw; subst. simpl in *. destruct w; try tauto.
    destruct H as [y [Hy ->]]; auto. destruct IHl as [z [Hz ->]]; auto. exists (exp r * y + z)%R. split; [|reflexivity].
    apply Rplus_le_le_0_compat; auto. apply Rmult_le_pos; auto. left. apply exp_pos.
  - intros Ha Hs. rewrite fold_and_Forall in *. induction IH as [|t l H _ IHl]; simpl; [exists 1%R; split; [lra|auto]|].
    inversion Ha; subst. inversion Hs; subst. destruct H as [y [Hy ->]]; auto. destruct IHl as [z [Hz ->]]; auto. exists (y * z)%R. split; [|reflexivity].
    now apply Rmult_le_pos.
Qed.

(** The bottom-up pass succeeds and leaves the invariant of CondPass.v. *)
Lemma cond_pass_gen core g r st order : shape core -> core g r -> bottom_up g = Some order -> NoDup order ->
  (forall u, In u order <-> In u (node_ids g)) -> topo_up g order ->
  (forall u, In u (node_ids g) -> exists t, unfolds g u t /\ all_leaves (leaf_good lcond val dvars Q) t /\ fin_sums t /\ smooth dvars t /\ decomposable dvars t) ->
  holds (Lval val (FN val g)) g /\
    exists g1 st1 nx1 r1 F M, foldM (unit_conditional lcond) order (g, st, S (list_max (node_ids g))) = Some (g1, st1, nx1) /\
     cinv dvars Q core g r (FN val g) (MN dvars g) [] g1 st1 nx1 r1 F M.
Proof.
  intros Hsh Hcore Hbu Hndo Ho Htopo Hunits0.
  assert (Hunits : forall u, In u (node_ids g) -> exists t, unfolds g u t).
  { intros u Hin. destruct (Hunits0 u Hin) as [t [Ht _]]. eauto. }
  set (F0 := FN val g). set (M0 := MN dvars g).
  assert (HF0 : holds (Lval val F0) g) by now apply holds_val.
  assert (HFn : forall x, is_prob (F0 x)).
  { intros x. unfold F0, FN. destruct (the_tree g x) as [tx|] eqn:Ex; [|exists 0%R; split; [lra|auto]].
    destruct (in_dec Nat.eq_dec x (node_ids g)) as [Hx|Hx].
    - destruct (Hunits0 x Hx) as [t0 [Ht0 [A [B _]]]]. rewrite (the_tree_unfolds _ _ _ Ht0) in Ex. injection Ex as <-. apply semN_prob; auto.
      eapply all_leaves_impl; [|exact A]. intros d [Hd _]. exact Hd.
    - exfalso. unfold the_tree in Ex. destruct (length (g_nodes g)) eqn:En.
      + simpl in Ex. discriminate.
      + simpl in Ex. destruct (node_kind g x) as [k|] eqn:Ek; [apply Hx; eapply node_kind_ids; eauto|discriminate]. }
  assert (HM0 : holds (Lscope dvars M0) g).
  { apply holds_scope. intros u Hu. destruct (Hunits0 u Hu) as [t [Ht [_ [_ [A B]]]]]. eauto. }
  assert (Hgk : forall u d, node_kind g u = Some (ULeaf d) -> leaf_good lcond val dvars Q d).
  { intros u d Hk. destruct (Hunits0 u) as [t [Ht [A _]]]; [eapply node_kind_ids; eauto|]. destruct Ht as [u d' Hk'|u ts Hk' Hne HF|u ts Hk' HF]; rewrite Hk in Hk'; try discriminate.
    injection Hk' as <-. exact A. }
  assert (Hlt : forall x, In x (node_ids g) -> x < S (list_max (node_ids g))).
  { intros x Hx. apply Nat.lt_succ_r. pose proof (proj1 (list_max_le (node_ids g) (list_max (node_ids g))) (le_n _)) as HL.
    rewrite Forall_forall in HL. auto. }
  assert (Hinit : cinv dvars Q core g r F0 M0 order g st (S (list_max (node_ids g))) r F0 M0) by (apply pass_init; auto; intros u Hu; now apply Ho).
  split; [exact HF0|].
  eapply (pass_inv lcond val dvars Q core Hsh g r F0 M0 order) with (pre := []); eauto. intros u Hu. now apply Ho.
Qed.

Lemma cond_pass g r t st : tree_circuit g r t -> all_leaves (leaf_good lcond val dvars Q) t -> smooth dvars t -> decomposable dvars t ->
  exists order, bottom_up g = Some order /\ NoDup order /\ (forall u, In u order <-> In u (node_ids g)) /\
    holds (Lval val (FN val g)) g /\
    exists g1 st1 nx1 r1 F M, foldM (unit_conditional lcond) order (g, st, S (list_max (node_ids g))) = Some (g1, st1, nx1) /\
     cinv dvars Q tcore g r (FN val g) (MN dvars g) [] g1 st1 nx1 r1 F M.
Proof.
  intros H Hgood Hsm Hdec. pose proof H as [Htree Hleaf Hunf Hfin]. pose proof Htree as [Hwf [Hac [Hr [Hnd [Hall Htop]]]]].
  pose proof (tree_root _ _ Htree) as Hroot.
  destruct (bottom_up_ids g r Hwf Hac Hroot) as [order [Hbu [Hndo Ho]]].
  assert (Htopo : topo_up g order).
  { destruct (bottom_up_spec g r Hwf Hroot) as [ls [Hls [Hbu' _]]]. rewrite Hbu' in Hbu. injection Hbu as <-.
    eapply graded_topo_up; eauto. now apply tree_graded. }
  exists order. split; [auto|split; [auto|split; [auto|]]]. eapply cond_pass_gen; eauto.
  - exact tcore_shape.
  - eapply circuit_tcore; eauto.
  - apply (tc_units (fun t => all_leaves (leaf_good lcond val dvars Q) t /\ fin_sums t /\ smooth dvars t /\ decomposable dvars t) g r t); auto.
    apply hered_and; [apply hered_all_leaves|apply hered_and; [apply hered_all_sums|apply hered_and; [apply hered_smooth|apply hered_decomposable]]].
Qed.

Theorem conditional_tree g r t st : tree_circuit g r t -> all_leaves (leaf_good lcond val dvars Q) t -> smooth dvars t -> decomposable dvars t ->
  (semN val t = Fin 0 /\ conditional_simple lcond g st = Some (None, NInf)) \/
  (semN val t <> Fin 0 /\ exists g' r' t' lp, conditional_simple lcond g st = Some (Some g', lp) /\ nexp lp = semN val t /\
     tree_circuit g' r' t' /\ normalised t' /\ all_leaves Q t' /\ smooth dvars t' /\ decomposable dvars t' /\
     (forall v, mentions dvars t' v <-> mentions dvars t v)).
Proof.
  intros H Hgood Hsm Hdec. pose proof H as [Htree Hleaf Hunf Hfin]. pose proof Htree as [_ [_ [Hr _]]].
  destruct (cond_pass g r t st H Hgood Hsm Hdec) as [order [Hbu [Hndo [Ho [HF0 Hps]]]]].
  set (F0 := FN val g) in *. set (M0 := MN dvars g) in *.
  destruct Hps as [g1 [st1 [nx [r1 [F [M [Hpass HI]]]]]]].
  unfold conditional_simple, conditional_finish. rewrite Hbu, Hpass. destruct HI. rename i_core into Hc1.
  pose proof (tk_tree _ _ Hc1) as Ht1. pose proof Ht1 as [Hwf1 [Hac1 [Hr1 [Hnd1 [Hall1 Htop1]]]]].
  rewrite (tree_root _ _ Ht1). destruct (bottom_up_ids g1 r1 Hwf1 Hac1 (tree_root _ _ Ht1)) as [order1 [Hbu1 [Hndo1 Ho1]]]. rewrite Hbu1.
  rewrite foldM_remove; [|now apply NoDup_filter|intros x Hx; apply filter_In in Hx; now apply Ho1].
  set (p := fun x => negb (result_is_ninf st1 x)).
  assert (Hg2 : remove_nodes_from g1 (filter (result_is_ninf st1) order1) = keepN p g1).
  { rewrite remove_nodes_keepN. apply keepN_ext; auto. intros x Hx. unfold p. f_equal. destruct (result_is_ninf st1 x) eqn:E.
    - apply existsb_exists. exists x. split; [|apply Nat.eqb_refl]. apply filter_In. split; auto. now apply Ho1.
    - apply not_true_iff_false. intros Hex. apply existsb_exists in Hex. destruct Hex as [y [Hy Ey]]. apply Nat.eqb_eq in Ey. subst y.
      apply filter_In in Hy. destruct Hy as [_ Hy]. congruence. }
  rewrite Hg2.
  assert (HFr : F r1 = semN val t).
  { destruct i_root as [_ [_ [E _]]]. rewrite E. unfold F0, FN. now rewrite (the_tree_unfolds _ _ _ Hunf). }
  assert (Hpz : forall x v, st1 x = Some v -> nexp v = F x -> (p x = false <-> F x = Fin 0)).
  { intros x v E1 E2. unfold p, result_is_ninf. rewrite E1. split.
    - intros Hp. rewrite <- E2. destruct v; simpl in Hp; try discriminate. reflexivity.
    - intros E. rewrite E in E2. apply nexp_zero in E2. subst v. reflexivity. }
  assert (Hresr : has_result st1 F r1).
  { destruct (node_kind_complete g1 r1 Hr1) as [k Hk]. pose proof (i_done r1 k Hk (fun x => x)) as Hd. destruct k as [d| |]; auto.
    destruct Hd as [[[_ Hd]|Hd] _]; auto. exfalso. destruct i_root as [[->|[_ E]] _]; [auto|congruence]. }
  destruct Hresr as [lp [Hlp1 Hlp2]].
  destruct (p r1) eqn:Epr.
  2:{ left. split; [rewrite <- HFr; now apply (Hpz r1 lp)|].
      replace (has_node (keepN p g1) r1) with false; auto. symmetry. apply not_true_iff_false. intros Hh. apply existsb_exists in Hh.
      destruct Hh as [x [Hx Ex]]. apply Nat.eqb_eq in Ex. subst x. apply keepN_ids in Hx. destruct Hx. congruence. }
  right. assert (Hnz : F r1 <> Fin 0) by (intros E; apply (Hpz r1 lp Hlp1 Hlp2) in E; congruence).
  split; [now rewrite <- HFr|].
  assert (Hr2 : In r1 (node_ids (keepN p g1))) by (apply keepN_ids; auto).
  replace (has_node (keepN p g1) r1) with true.
  2:{ symmetry. apply existsb_exists. exists r1. split; auto. apply Nat.eqb_refl. }
  cbn [negb]. destruct (remove_unreachable_spec (keepN p g1) r1 (keepN_wf p g1 Hwf1) Hr2) as [q [Hq1 Hq2]]. rewrite Hq1, keepN_keepN.
  set (pq := fun u => p u && q u). set (g3 := keepN pq g1).
  assert (Hpq : forall u, In u (node_ids g1) -> (pq u = true <-> p u = true /\ reach (keepN p g1) r1 u)).
  { intros u Hu. unfold pq. rewrite andb_true_iff. split; intros [A B]; split; auto; apply Hq2; auto; apply keepN_ids; auto. }
  assert (Hpqr : pq r1 = true) by (apply Hpq; auto; split; auto; constructor).
  (* what the units of [g1] say about their children *)
  assert (Hsumc : forall x, node_kind g1 x = Some USum -> p x = true -> exists e, In e (out_edges g1 x) /\ p (e_dst e) = true).
  { intros x Hk Hp. assert (Hx1 : In x (node_ids g1)) by (eapply node_kind_ids; eauto).
    destruct (i_done x _ Hk (fun x => x)) as [v [V1 V2]].
    assert (Hxz : F x <> Fin 0) by (intros E; apply (Hpz x v V1 V2) in E; congruence).
    destruct (in_dec Nat.eq_dec x (node_ids g)) as [Hx0|Hx0].
    - pose proof (i_perm x Hx1 Hx0) as HP. pose proof (i_kind x _ Hk Hx0 ltac:(discriminate)) as Hk0. pose proof (HF0 x _ Hk0) as HV. simpl in HV.
      destruct (existsb (fun e => p (e_dst e)) (out_edges g1 x)) eqn:Ex; [apply existsb_exists in Ex; destruct Ex as [e [A B]]; eauto|].
      exfalso. apply Hxz. rewrite (i_F x Hx0), HV.
      rewrite <- (map_map (fun e => (e_lw e, F0 (e_dst e))) (fun q => nmul (lwN (fst q)) (snd q))).
      rewrite <- (nsum_perm _ _ (Permutation_map (fun q => nmul (lwN (fst q)) (snd q)) HP)). rewrite map_map. apply nsum_zero.
      apply Forall_map, Forall_forall. intros e He. cbn [fst snd].
      assert (Hpe : p (e_dst e) = false).
      { destruct (p (e_dst e)) eqn:Ep; auto. rewrite <- Ex. symmetry. apply existsb_exists. eauto. }
      apply out_edges_In in He. destruct He as [He Es]. destruct (i_child e He) as [[[] _]|[w [W1 W2]]]; [now rewrite Es|].
      apply (Hpz _ w W1 W2) in Hpe. rewrite Hpe. destruct (tk_w _ _ Hc1 e He) as [y Hy]; [congruence|]. rewrite Hy. simpl. f_equal. lra.
    - specialize (i_new x _ Hk Hx0). simpl in i_new. destruct i_new as [_ N]. pose proof (tk_sum _ _ Hc1 x Hk) as Hne.
      destruct (out_edges g1 x) as [|e L]; [tauto|]. exists e. split; [now left|]. destruct (N e (or_introl eq_refl)) as [_ N2].
      unfold p, result_is_ninf. now rewrite N2. }
  assert (Hprodc : forall x, node_kind g1 x = Some UProd -> p x = true -> forall e, In e (out_edges g1 x) -> p (e_dst e) = true).
  { intros x Hk Hp e He. assert (Hx1 : In x (node_ids g1)) by (eapply node_kind_ids; eauto).
    destruct (i_done x _ Hk (fun x => x)) as [v [V1 V2]].
    assert (Hxz : F x <> Fin 0) by (intros E; apply (Hpz x v V1 V2) in E; congruence).
    destruct (in_dec Nat.eq_dec x (node_ids g)) as [Hx0|Hx0]; [|exfalso; apply (i_new x _ Hk Hx0)].
    pose proof (i_perm x Hx1 Hx0) as HP. pose proof (i_kind x _ Hk Hx0 ltac:(discriminate)) as Hk0. pose proof (HF0 x _ Hk0) as HV. simpl in HV.
    destruct (p (e_dst e)) eqn:Ep; auto. exfalso. apply Hxz. rewrite (i_F x Hx0), HV.
    assert (Hpr : forall l : list (option num * num), Forall is_prob (map snd l) -> Forall nonneg (map snd l)).
    { intros l Hl. eapply Forall_impl; [|exact Hl]. intros y [z [Hz ->]]. exact Hz. }
    assert (HPr : Forall is_prob (map (fun e => F (e_dst e)) (out_edges g1 x))) by (apply Forall_map, Forall_forall; intros e' _; apply i_Fn).
    rewrite <- (map_map (fun e => (e_lw e, F0 (e_dst e))) snd).
    rewrite <- (nprod_perm _ _ (Permutation_map snd HP)); [|apply Hpr; rewrite map_map; exact HPr].
    rewrite map_map. cbn [snd]. apply nprod_zero; auto. apply in_map_iff. exists e. split; auto.
    apply out_edges_In in He. destruct He as [He Es]. destruct (i_child e He) as [[[] _]|[w [W1 W2]]]; [now rewrite Es|].
    now apply (Hpz _ w W1 W2). }
  assert (Hdown : forall x e, In e (out_edges g1 x) -> pq x = true -> p (e_dst e) = true -> pq (e_dst e) = true).
  { intros x e He Hx Hpe. apply out_edges_In in He. destruct He as [He Es]. apply Hpq in Hx; [|rewrite <- Es; now apply (wf_src g1 Hwf1)].
    destruct Hx as [Hx1 Hx2]. apply Hpq; [now apply (wf_dst g1 Hwf1)|]. split; auto. subst x.
    eapply reach_step; [exact Hx2| |reflexivity]. apply keepN_edges. auto. }
  assert (Hup : forall e, In e (g_edges g1) -> pq (e_dst e) = true -> pq (e_src e) = true).
  { intros e He Hd. apply Hpq in Hd; [|now apply (wf_dst g1 Hwf1)]. destruct Hd as [Hd1 Hd2].
    inversion Hd2 as [E|x' e' Hre He' E' E].
    - exfalso. apply Htop1. rewrite E. now apply in_map.
    - apply keepN_edges in He'. destruct He' as [He' [P1 P2]].
      assert (Ee : e' = e) by (apply (NoDup_map_unique e_dst (g_edges g1)); auto). subst e'.
      apply Hpq; [now apply (wf_src g1 Hwf1)|]. subst x'. auto. }
  assert (Ht3 : tree_shaped g3 r1) by (apply keepN_tree; auto).
  assert (Hs3 : forall u, node_kind g3 u = Some USum -> out_edges g3 u <> []).
  { intros u Hk. apply keepN_kind_some in Hk. destruct Hk as [Hp Hk]. unfold g3. rewrite keepN_out by auto.
    assert (Hpu : p u = true) by (unfold pq in Hp; apply andb_true_iff in Hp; tauto).
    destruct (Hsumc u Hk Hpu) as [e [He Hpe]]. intros E.
    assert (Hin : In e (filter (fun e => pq (e_dst e)) (out_edges g1 u))) by (apply filter_In; split; auto; eapply Hdown; eauto).
    rewrite E in Hin. destruct Hin. }
  assert (Hc3 : tcore g3 r1).
  { constructor; auto.
    - now apply keepN_leaves, Hc1.
    - intros e He Hk. apply keepN_edges in He. apply keepN_kind_some in Hk. apply (tk_w _ _ Hc1); tauto. }
  assert (Hsc3 : holds (Lscope dvars M) g3).
  { intros u k Hk. assert (Hk3 := Hk). apply keepN_kind_some in Hk. destruct Hk as [Hp Hk]. pose proof (i_scope u k Hk) as [S1 [S2 S3]].
    assert (Hpu : p u = true) by (unfold pq in Hp; apply andb_true_iff in Hp; tauto).
    unfold g3. rewrite keepN_out by auto. destruct k as [d| |].
    - split; [exact S1|split; exact I].
    - simpl in *. split; [|split; [|exact I]]; simpl.
      + intros v. destruct (Hsumc u Hk Hpu) as [e [He Hpe]]. split.
        * intros Hm. exists e. split; [apply filter_In; split; auto; eapply Hdown; eauto|]. now apply S2.
        * intros [e' [He' Hm]]. apply filter_In in He'. apply S1. exists e'. tauto.
      + intros e He. apply filter_In in He. apply S2. tauto.
    - replace (filter (fun e => pq (e_dst e)) (out_edges g1 u)) with (out_edges g1 u); [split; [auto|split; auto]|].
      symmetry. apply filter_all. intros e He. eapply Hdown; eauto. }
  destruct (tcore_circuit g3 r1 Hc3) as [t3 H3].
  assert (HQ3 : all_leaves Q t3).
  { eapply leaves_back; [|apply H3]. intros x d Hk. apply keepN_kind_some in Hk. destruct Hk as [Hp Hk].
    assert (Hpu : p x = true) by (unfold pq in Hp; apply andb_true_iff in Hp; tauto).
    destruct (i_done x _ Hk (fun x => x)) as [_ HQ]. apply HQ. intros E. unfold p, result_is_ninf in Hpu. rewrite E in Hpu. discriminate. }
  destruct (simplify_struct (fun _ => false) g3 r1 t3 H3) as [g4 [r4 [t4 [S1 [S2 [S3 [S4 S5]]]]]]]; [apply all_leaves_True; auto|].
  fold g3. rewrite S1.
  destruct (normalize_tree g4 r4 (circuit_tcore _ _ _ S2)) as [g5 [N1 [N2 [N3 [N4 [N5 N6]]]]]]. rewrite N1, Hlp1.
  destruct (tcore_circuit g5 r4 N2) as [t5 H5].
  destruct (S5 _ (Lscope_closed dvars M) Hsc3) as [Hsc4 Hr4].
  pose proof (N6 dvars M Hsc4) as Hsc5. destruct (scope_back _ _ _ _ _ Hsc5 (tc_unf _ _ _ H5)) as [Em [Esm Edec]].
  exists g5, r4, t5, lp. split; [auto|split; [congruence|split; [auto|split; [|split; [|split; [auto|split; [auto|]]]]]]].
  - apply (norm_back g5 r4); [|exact N4|exact N5|apply H5]. intros u Hu. destruct (tc_units (fun _ => True) g5 r4 t5 H5 hered_True I u Hu) as [t0 [Ht0 _]]. eauto.
  - eapply leaves_back; [|apply H5]. intros x d Hk. rewrite N3 in Hk. eapply tc_kinds; [exact S2|apply S4; exact HQ3|exact Hk].
  - intros v. rewrite Em. destruct i_root as [_ [_ [_ Rm]]].
    assert (E0 : M0 r v <-> mentions dvars t v) by (unfold M0, MN; now rewrite (the_tree_unfolds _ _ _ Hunf)).
    rewrite <- E0, <- Rm. destruct Hr4 as [->|[k [e [[A1 _] [B ->]]]]]; [tauto|].
    destruct k as [d| |]; [exfalso; now apply (B d)| |]; simpl in A1; rewrite (A1 v);
      (split; [intros Hv; exists e; simpl; auto|intros [e' [[<-|[]] Hv]]; auto]).
Qed.
End Main.
