(** * CondDag: the number that conditioning returns on circuits with shared units *)
From Coq Require Import List Arith Bool Lia Reals Lra Permutation.
From Verif Require Import Num Graph GraphFacts Spec SpecFacts Circuit EvalFacts PropertiesProb Simplify SimplifyFacts TreeLocal NormalizeFacts
  Restrict MarginalFacts Conditional ConditionalFacts CondPass CondMain.
Import ListNotations.
Local Set Bullet Behavior "Strict Subproofs".

Section Dag.
Context {D : Type}.
Implicit Types g : graph D.

Lemma layered_units (P : pc D -> Prop) g r t : wf g -> acyclic g -> leaves_terminal g -> root g = Some r -> unfolds g r t -> hereditary P -> P t ->
  forall u, In u (node_ids g) -> exists t', unfolds g u t' /\ P t'.
Proof.
  intros Hwf Hac Hlf Hroot Hu HP Ht u Hin. apply (reach_hereditary P g r t); auto. now apply root_reaches_all.
Qed.

Lemma layered_lcore g r t : wf g -> acyclic g -> leaves_terminal g -> root g = Some r -> unfolds g r t -> fin_sums t -> lcore g r.
Proof.
  intros Hwf Hac Hlf Hroot Hu Hfin. constructor; auto.
  - intros u Hk. destruct (layered_units (fun _ => True) g r t Hwf Hac Hlf Hroot Hu hered_True I u) as [t' [Ht' _]]; [eapply node_kind_ids; eauto|].
    destruct Ht'; congruence.
  - intros e He Hk. destruct (layered_units _ g r t Hwf Hac Hlf Hroot Hu (hered_all_sums _) Hfin (e_src e)) as [t' [Ht' Hf]]; [now apply (wf_src g Hwf)|].
    remember (e_src e) as s eqn:Es. destruct Ht' as [u d' Hk'|u ts Hk' Hne HF|u ts Hk' HF]; rewrite Hk in Hk'; try discriminate.
    assert (Hin : In e (out_edges g u)) by (apply out_edges_In; auto).
    destruct Hf as [Hf _]. rewrite Forall_map in Hf. clear - HF Hf Hin. induction HF as [|e0 p l l' [E _] HF IH]; [destruct Hin|].
    inversion Hf as [|? ? Hw Hf']; subst. destruct Hin as [->|Hin]; [|auto]. destruct (fst p) as [| |x|]; try (exfalso; exact Hw). eauto.
Qed.

Variable lcond : D -> option (lres D).
Variable val : D -> num.
Variable dvars : D -> list nat.
Variable Q : D -> Prop.

(** Whatever conditioning returns, it returns the value of the unfolding. *)
Theorem conditional_layered g t st : layered_circuit g t -> acyclic g -> fin_sums t -> all_leaves (leaf_good lcond val dvars Q) t ->
  smooth dvars t -> decomposable dvars t ->
  (semN val t = Fin 0 -> conditional_simple lcond g st = Some (None, NInf)) /\
  (forall res lp, conditional_simple lcond g st = Some (res, lp) -> nexp lp = semN val t /\ (res = None <-> semN val t = Fin 0)).
Proof.
  intros [Hwf [Hlf [r [Hroot [Hgr Hunf]]]]] Hac Hfin Hgood Hsm Hdec.
  destruct (bottom_up_ids g r Hwf Hac Hroot) as [order [Hbu [Hndo Ho]]].
  assert (Htopo : topo_up g order).
  { destruct (bottom_up_spec g r Hwf Hroot) as [ls [Hls [Hbu' _]]]. rewrite Hbu' in Hbu. injection Hbu as <-. eapply graded_topo_up; eauto. }
  destruct (cond_pass_gen lcond val dvars Q lcore g r st order lcore_shape) as [HF0 [g1 [st1 [nx [r1 [F [M [Hpass HI]]]]]]]]; auto.
  { eapply layered_lcore; eauto. }
  { apply (layered_units (fun t => all_leaves (leaf_good lcond val dvars Q) t /\ fin_sums t /\ smooth dvars t /\ decomposable dvars t) g r t); auto.
    apply hered_and; [apply hered_all_leaves|apply hered_and; [apply hered_all_sums|apply hered_and; [apply hered_smooth|apply hered_decomposable]]]. }
  unfold conditional_simple, conditional_finish. rewrite Hbu, Hpass. destruct HI. rename i_core into Hc1.
  pose proof (lk_wf _ _ Hc1) as Hwf1. pose proof (lk_acyclic _ _ Hc1) as Hac1. pose proof (lk_root _ _ Hc1) as Hroot1. destruct (root_spec _ _ Hroot1) as [Hr1 _].
  rewrite Hroot1. destruct (bottom_up_ids g1 r1 Hwf1 Hac1 Hroot1) as [order1 [Hbu1 [Hndo1 Ho1]]]. rewrite Hbu1.
  rewrite foldM_remove; [|now apply NoDup_filter|intros x Hx; apply filter_In in Hx; now apply Ho1].
  set (p := fun x => negb (result_is_ninf st1 x)).
  assert (Hg2 : remove_nodes_from g1 (filter (result_is_ninf st1) order1) = keepN p g1).
  { rewrite remove_nodes_keepN. apply keepN_ext; auto. intros x Hx. unfold p. f_equal. destruct (result_is_ninf st1 x) eqn:E.
    - apply existsb_exists. exists x. split; [|apply Nat.eqb_refl]. apply filter_In. split; auto. now apply Ho1.
    - apply not_true_iff_false. intros Hex. apply existsb_exists in Hex. destruct Hex as [y [Hy Ey]]. apply Nat.eqb_eq in Ey. subst y.
      apply filter_In in Hy. destruct Hy as [_ Hy]. congruence. }
  rewrite Hg2.
  assert (HFr : F r1 = semN val t).
  { destruct i_root as [_ [_ [E _]]]. rewrite E. unfold FN. now rewrite (the_tree_unfolds _ _ _ Hunf). }
  assert (Hr0 : In r (node_ids g)) by now apply root_spec in Hroot.
  assert (Hresr : has_result st1 F r1).
  { destruct (node_kind_complete g1 r1 Hr1) as [k Hk]. pose proof (i_done r1 k Hk (fun x => x)) as Hd. destruct k as [d| |]; auto.
    destruct Hd as [[[_ Hd]|Hd] _]; auto. exfalso. destruct i_root as [[->|[_ E]] _]; [auto|congruence]. }
  destruct Hresr as [lp [Hlp1 Hlp2]].
  assert (Hpz : p r1 = false <-> F r1 = Fin 0).
  { unfold p, result_is_ninf. rewrite Hlp1. split.
    - intros Hp. rewrite <- Hlp2. destruct lp; simpl in Hp; try discriminate. reflexivity.
    - intros E. rewrite E in Hlp2. apply nexp_zero in Hlp2. subst lp. reflexivity. }
  rewrite HFr in Hpz, Hlp2.
  assert (Hhas : has_node (keepN p g1) r1 = p r1).
  { destruct (p r1) eqn:Epr.
    - apply existsb_exists. exists r1. split; [apply keepN_ids; auto|apply Nat.eqb_refl].
    - apply not_true_iff_false. intros Hh. apply existsb_exists in Hh. destruct Hh as [x [Hx Ex]]. apply Nat.eqb_eq in Ex. subst x.
      apply keepN_ids in Hx. destruct Hx. congruence. }
  rewrite Hhas. destruct (p r1); cbn [negb].
  - split; [intros E; apply Hpz in E; discriminate|]. intros res lp'. destruct (remove_unreachable_nodes (keepN p g1) r1) as [g3|]; [|discriminate].
    destruct (simplify (fun _ => false) g3) as [g4|]; [|discriminate]. destruct (normalize g4) as [g5|]; [|discriminate].
    rewrite Hlp1. intros E. injection E as <- <-. split; [exact Hlp2|]. split; [discriminate|]. intros E. apply Hpz in E. discriminate.
  - assert (E0 : semN val t = Fin 0) by now apply Hpz. split; [reflexivity|]. intros res lp' E. injection E as <- <-. rewrite E0. cbn. tauto.
Qed.
End Dag.
