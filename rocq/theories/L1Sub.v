(** * L1Sub: the subgraph below a unit is a circuit of its own *)
From Coq Require Import List Arith Bool Lia Reals.
From Verif Require Import Num Graph GraphFacts Spec SpecFacts Circuit EvalFacts Simplify SimplifyFacts TreeLocal Restrict Interval Dist Support
  Interaction PropertiesProb L1.
Import ListNotations.
Local Set Bullet Behavior "Strict Subproofs".

Section Below.
Variables (g : graph dist) (r u : id) (l : list id).
Hypothesis Hwf : wf g.
Hypothesis Hlt : leaves_terminal g.
Hypothesis Hg : graded g r.
Hypothesis Hu : reach g r u.
Hypothesis Hid : In u (node_ids g).
Hypothesis Hl : forall x, In x l <-> reach g u x.

Let p := fun v => existsb (Nat.eqb v) l.

Lemma below_p v : p v = true <-> reach g u v.
Proof.
  unfold p. rewrite existsb_exists, <- Hl. split; [intros (x & Hx & E); apply Nat.eqb_eq in E; now subst|].
  intros H. exists v. split; [exact H|apply Nat.eqb_refl].
Qed.

Lemma below_ids v : reach g u v -> In v (node_ids g).
Proof. intros H. induction H; auto. now apply (wf_dst g Hwf). Qed.

Lemma below_reach v : reach g u v -> reach (subgraph g l) u v.
Proof.
  intros H. induction H as [|v e Hs IH He Es]; [constructor|]. apply (reach_step _ _ v e); [exact IH| |exact Es].
  apply (keepN_edges p g e). split; [exact He|]. split; apply below_p; [now rewrite Es|now apply (reach_step g u v e)].
Qed.

Lemma below_reach' v : reach (subgraph g l) u v -> reach g u v.
Proof. intros H. induction H as [|v e Hs IH He Es]; [constructor|]. apply (keepN_edges p g e) in He as [He _]. now apply (reach_step g u v e). Qed.

Lemma below_out v : reach g u v -> out_edges (subgraph g l) v = out_edges g v.
Proof.
  intros H. change (subgraph g l) with (keepN p g). rewrite keepN_out by now apply below_p. apply filter_all. intros e He. apply below_p.
  unfold out_edges in He. apply filter_In in He as [He E]. apply Nat.eqb_eq in E. apply (reach_step g u v e); auto.
Qed.

Lemma below_unfolds v t : reach g u v -> unfolds g v t -> unfolds (subgraph g l) v t.
Proof.
  intros Hr Hv. revert Hr. revert v t Hv. apply (unfolds_ind' g (fun v t => reach g u v -> unfolds (subgraph g l) v t)).
  - intros v d K Hr. constructor. change (subgraph g l) with (keepN p g). rewrite keepN_kind; [exact K|now apply below_p].
  - intros v ts K Hne Hf Hr. constructor.
    + change (subgraph g l) with (keepN p g). rewrite keepN_kind; [exact K|now apply below_p].
    + now rewrite below_out.
    + rewrite below_out by auto.
      assert (Hs : forall e, In e (out_edges g v) -> reach g u (e_dst e)).
      { intros e He. unfold out_edges in He. apply filter_In in He as [He E]. apply Nat.eqb_eq in E. apply (reach_step g u v e); auto. }
      clear -Hf Hs. induction Hf as [|e wt es ts (H1 & H2 & H3) Hf IH]; [constructor|]. constructor.
      * split; [exact H1|]. apply H3; apply Hs; now left.
      * apply IH; auto. intros e' He'. apply Hs. now right.
  - intros v ts K Hf Hr. constructor.
    + change (subgraph g l) with (keepN p g). rewrite keepN_kind; [exact K|now apply below_p].
    + rewrite below_out by auto.
      assert (Hs : forall e, In e (out_edges g v) -> reach g u (e_dst e)).
      { intros e He. unfold out_edges in He. apply filter_In in He as [He E]. apply Nat.eqb_eq in E. apply (reach_step g u v e); auto. }
      clear -Hf Hs. induction Hf as [|e t es ts [H1 H2] Hf IH]; [constructor|]. constructor.
      * apply H2; apply Hs; now left.
      * apply IH; auto. intros e' He'. apply Hs. now right.
Qed.

Lemma below_root : root (subgraph g l) = Some u.
Proof.
  destruct Hg as (lv & Hlv0 & Hlv).
  assert (Lv : forall v, reach g u v -> lv u <= lv v).
  { intros v H. induction H as [|v e Hs IH He Es]; [lia|]. rewrite Hlv; auto; [rewrite Es; lia|]. rewrite Es. eapply reach_trans; eauto. }
  assert (Nd : NoDup (node_ids (subgraph g l))) by (apply (wf_nodes _ (keepN_wf p g Hwf))).
  assert (K : forall v, In v (root_candidates (subgraph g l)) <-> v = u).
  { intros v. unfold root_candidates. rewrite filter_In. split.
    - intros [Hv E]. apply (keepN_ids p g v) in Hv as [_ Hv]. apply below_p in Hv. inversion Hv as [|w e Hs He Es E']; [reflexivity|]. exfalso.
      destruct (in_edges (subgraph g l) v) as [|e' es] eqn:Ei; [|discriminate].
      assert (H : In e (in_edges (subgraph g l) v)); [|now rewrite Ei in H].
      unfold in_edges. apply filter_In. split; [|subst; apply Nat.eqb_refl]. apply (keepN_edges p g e). split; [exact He|].
      split; apply below_p; [now rewrite Es|now apply (reach_step g u w e)].
    - intros ->. split; [apply (keepN_ids p g u); split; [exact Hid|apply below_p; constructor]|].
      destruct (in_edges (subgraph g l) u) as [|e es] eqn:Ei; [reflexivity|]. exfalso.
      assert (H : In e (in_edges (subgraph g l) u)) by (rewrite Ei; now left). unfold in_edges in H. apply filter_In in H as [H E]. apply Nat.eqb_eq in E.
      apply (keepN_edges p g e) in H as (He & Hs & _). apply below_p in Hs. specialize (Lv _ Hs). rewrite <- E, Hlv in Lv; [lia|exact He|]. eapply reach_trans; eauto. }
  unfold root. assert (N2 : NoDup (root_candidates (subgraph g l))) by (unfold root_candidates; now apply NoDup_filter).
  destruct (root_candidates (subgraph g l)) as [|a [|b c]] eqn:E.
  - destruct (proj2 (K u) eq_refl).
  - f_equal. apply K. now left.
  - exfalso. inversion N2 as [|? ? N3 _]; subst. apply N3. assert (a = u) by (apply K; now left). assert (b = u) by (apply K; right; now left). subst. now left.
Qed.

Lemma below_graded : graded (subgraph g l) u.
Proof.
  destruct Hg as (lv & Hlv0 & Hlv). exists (fun v => lv v - lv u). split; [lia|]. intros e He Hs. apply below_reach' in Hs.
  apply (keepN_edges p g e) in He as (He & _). rewrite Hlv; [|exact He|eapply reach_trans; eauto].
  assert (Lv : forall v, reach g u v -> lv u <= lv v).
  { intros v H. induction H as [|v e' Hs' IH He' Es]; [lia|]. rewrite Hlv; auto; [rewrite Es; lia|]. rewrite Es. eapply reach_trans; eauto. }
  specialize (Lv _ Hs). lia.
Qed.
End Below.

Lemma subgraph_of_spec g r u t : wf g -> leaves_terminal g -> graded g r -> reach g r u -> In u (node_ids g) -> unfolds g u t ->
  exists h, subgraph_of g u = Some h /\ layered_circuit h t.
Proof.
  intros Hwf Hlt Hg Hu Hid Ht. destruct (layers_from_total g u Hwf Hid) as [ls Hls]. unfold subgraph_of, reachable_list. rewrite Hls.
  assert (Hl := layers_from_In g u ls Hls). eexists. split; [reflexivity|]. split; [|split].
  - apply (keepN_wf (fun v => existsb (Nat.eqb v) (concat ls)) g Hwf).
  - apply (keepN_leaves (fun v => existsb (Nat.eqb v) (concat ls)) g Hlt).
  - exists u. split; [eapply below_root; eauto|]. split; [eapply below_graded; eauto|]. apply (below_unfolds g u (concat ls)); auto. constructor.
Qed.
