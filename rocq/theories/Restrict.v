(** * Restrict: removing units from a tree-shaped circuit *)
From Coq Require Import List Arith Bool Lia Reals Permutation Sorting.Sorted.
From Verif Require Import Num Graph GraphFacts Spec SpecFacts Circuit EvalFacts Simplify SimplifyFacts TreeLocal.
Import ListNotations.

Section Restrict.
Context {D : Type}.
Implicit Types g : graph D.

(** The circuit induced by the units that satisfy [p]. *)
Definition keepN (p : id -> bool) g : graph D :=
  mkGraph (filter (fun n => p (fst n)) (g_nodes g)) (filter (fun e => p (e_src e) && p (e_dst e)) (g_edges g)).

Lemma keepN_ids p g u : In u (node_ids (keepN p g)) <-> In u (node_ids g) /\ p u = true.
Proof.
  unfold node_ids, keepN. simpl. rewrite !in_map_iff. split.
  - intros [n [<- H]]. apply filter_In in H. split; [exists n|]; tauto.
  - intros [[n [<- H]] Hp]. exists n. split; auto. apply filter_In. auto.
Qed.

Lemma keepN_edges p g e : In e (g_edges (keepN p g)) <-> In e (g_edges g) /\ p (e_src e) = true /\ p (e_dst e) = true.
Proof. unfold keepN. simpl. rewrite filter_In, andb_true_iff. tauto. Qed.

Lemma keepN_kind p g u : p u = true -> node_kind (keepN p g) u = node_kind g u.
Proof. intros H. unfold node_kind, keepN. simpl. rewrite find_filter; auto. intros n _ Hn. apply Nat.eqb_eq in Hn. subst u. exact H. Qed.

Lemma keepN_kind_some p g u k : node_kind (keepN p g) u = Some k -> p u = true /\ node_kind g u = Some k.
Proof.
  intros H. assert (Hp : p u = true) by (apply node_kind_ids in H; now apply keepN_ids in H).
  split; auto. now rewrite keepN_kind in H.
Qed.

Lemma keepN_out p g u : p u = true -> out_edges (keepN p g) u = filter (fun e => p (e_dst e)) (out_edges g u).
Proof.
  intros H. unfold out_edges, keepN. simpl. rewrite !filter_filter. apply filter_ext. intros e.
  destruct (e_src e =? u) eqn:E; [apply Nat.eqb_eq in E; rewrite E, H|]; destruct (p (e_dst e)); simpl; auto; now rewrite ?andb_false_r, ?andb_true_r.
Qed.

Lemma keepN_sub p g u : p u = true -> subcircuits (keepN p g) u = filter p (subcircuits g u).
Proof.
  intros H. unfold subcircuits. rewrite keepN_out by auto. induction (out_edges g u) as [|e l IH]; simpl; auto.
  destruct (p (e_dst e)); simpl; now rewrite IH.
Qed.

Lemma keepN_ext p q g : wf g -> (forall u, In u (node_ids g) -> p u = q u) -> keepN p g = keepN q g.
Proof.
  intros Hwf H. unfold keepN. f_equal; apply filter_ext_in.
  - intros n Hn. apply H. now apply in_map.
  - intros e He. rewrite !H; auto; [now apply (wf_dst g Hwf)|now apply (wf_src g Hwf)].
Qed.

Lemma keepN_all p g : wf g -> (forall u, In u (node_ids g) -> p u = true) -> keepN p g = g.
Proof.
  intros Hwf H. destruct g as [ns es]. unfold keepN. simpl. f_equal; apply filter_all.
  - intros n Hn. apply H. now apply (in_map fst) in Hn.
  - intros e He. rewrite !H; auto; [now apply (wf_dst _ Hwf)|now apply (wf_src _ Hwf)].
Qed.

Lemma keepN_keepN p q g : keepN p (keepN q g) = keepN (fun u => q u && p u) g.
Proof.
  unfold keepN. simpl. rewrite !filter_filter. f_equal; apply filter_ext; intros x; auto.
  destruct (q (e_src x)), (q (e_dst x)), (p (e_src x)), (p (e_dst x)); auto.
Qed.

Lemma drop_keepN g u : drop_node g u = keepN (fun v => negb (v =? u)) g.
Proof. reflexivity. Qed.

Lemma remove_nodes_keepN l : forall g, remove_nodes_from g l = keepN (fun v => negb (existsb (Nat.eqb v) l)) g.
Proof.
  induction l as [|a l IH]; intros g; simpl.
  - unfold keepN. destruct g as [ns es]. simpl. f_equal; symmetry; apply filter_all; auto.
  - change (remove_nodes_from g (a :: l)) with (remove_nodes_from (drop_node g a) l). rewrite IH, drop_keepN, keepN_keepN.
    unfold keepN. f_equal; apply filter_ext; intros x; rewrite !negb_orb; auto.
Qed.

Lemma keepN_wf p g : wf g -> wf (keepN p g).
Proof.
  intros [H1 H2 H3 H4]. constructor.
  - now apply NoDup_map_filter.
  - now apply NoDup_map_filter.
  - intros e He. apply keepN_edges in He. apply keepN_ids. split; [apply H3|]; tauto.
  - intros e He. apply keepN_edges in He. apply keepN_ids. split; [apply H4|]; tauto.
Qed.

Lemma keepN_leaves p g : leaves_terminal g -> leaves_terminal (keepN p g).
Proof.
  intros H e d He Hk. apply keepN_edges in He. apply keepN_kind_some in Hk. eapply H; [apply He|apply Hk].
Qed.

(** Keeping a set of units that contains with every unit its parent leaves a tree. *)
Lemma keepN_tree p g r : tree_shaped g r -> p r = true ->
  (forall e, In e (g_edges g) -> p (e_dst e) = true -> p (e_src e) = true) -> tree_shaped (keepN p g) r.
Proof.
  intros [Hwf [[rk Hrk] [Hr [Hnd [Hall Htop]]]]] Hpr Hup. split; [now apply keepN_wf|].
  split; [exists rk; intros e He; apply keepN_edges in He; apply Hrk; tauto|].
  split; [apply keepN_ids; auto|]. split; [now apply NoDup_map_filter|]. split.
  - intros u Hu Hne. apply keepN_ids in Hu. destruct Hu as [Hu Hp]. specialize (Hall u Hu Hne). apply in_map_iff in Hall.
    destruct Hall as [e [<- He]]. apply in_map. apply keepN_edges. auto.
  - intros H. apply Htop. apply in_map_iff in H. destruct H as [e [<- He]]. apply in_map. now apply keepN_edges in He.
Qed.

(** [remove_unreachable_nodes] keeps what can be reached. *)
Lemma remove_unreachable_spec g r : wf g -> In r (node_ids g) ->
  exists q, remove_unreachable_nodes g r = Some (keepN q g) /\ forall u, In u (node_ids g) -> (q u = true <-> reach g r u).
Proof.
  intros Hwf Hr. destruct (layers_from_total g r Hwf Hr) as [ls Hls]. unfold remove_unreachable_nodes, reachable_list. rewrite Hls.
  rewrite remove_nodes_keepN. eexists. split; [reflexivity|]. intros u Hu. rewrite <- (layers_from_In g r ls Hls).
  rewrite negb_true_iff. split.
  - intros H. destruct (existsb (Nat.eqb u) (concat ls)) eqn:E.
    + apply existsb_exists in E. destruct E as [x [Hx Ex]]. apply Nat.eqb_eq in Ex. now subst.
    + exfalso. rewrite <- not_true_iff_false in H. apply H. apply existsb_exists. exists u. split; [|apply Nat.eqb_refl].
      apply filter_In. rewrite E. auto.
  - intros H. apply not_true_iff_false. intros E. apply existsb_exists in E. destruct E as [x [Hx Ex]]. apply Nat.eqb_eq in Ex. subst x.
    apply filter_In in Hx. destruct Hx as [_ Hx]. apply negb_true_iff in Hx. rewrite <- not_true_iff_false in Hx. apply Hx.
    apply existsb_exists. exists u. split; auto. apply Nat.eqb_refl.
Qed.

Lemma remove_unreachable_id g r : wf g -> acyclic g -> root g = Some r -> remove_unreachable_nodes g r = Some g.
Proof.
  intros Hwf Hac Hr. destruct (remove_unreachable_spec g r Hwf) as [q [H1 H2]]; [now apply root_spec in Hr|]. rewrite H1. f_equal.
  apply keepN_all; auto. intros u Hu. apply H2; auto. now apply root_reaches_all.
Qed.

(** ** Pruning trees *)
Section Prune.
Variable S : pc D -> bool.

Fixpoint prune (t : pc D) : pc D :=
  match t with
  | PLeaf d => PLeaf d
  | PSum l => PSum (flat_map (fun wt => if S (snd wt) then [(fst wt, prune (snd wt))] else []) l)
  | PProd l => PProd (flat_map (fun t' => if S t' then [prune t'] else []) l)
  end.

Lemma prune_unfolds p g u t : unfolds g u t -> p u = true ->
  (forall e t', In e (g_edges g) -> p (e_src e) = true -> unfolds g (e_dst e) t' -> p (e_dst e) = S t') ->
  (forall l, S (PSum l) = true -> existsb (fun wt => S (snd wt)) l = true) -> S t = true ->
  unfolds (keepN p g) u (prune t).
Proof.
  intros Hu Hp Hedge Hs. revert Hp. revert u t Hu. refine (unfolds_ind' g _ _ _ _).
  - intros u d Hk Hp _. apply unf_leaf. now rewrite keepN_kind.
  - intros u ts Hk Hne HF Hp HS. simpl.
    assert (HF' : Forall2 (fun e wt => e_lw e = Some (fst wt) /\ unfolds g (e_dst e) (snd wt) /\ p (e_dst e) = S (snd wt) /\
                    (S (snd wt) = true -> unfolds (keepN p g) (e_dst e) (prune (snd wt)))) (out_edges g u) ts).
    { eapply Forall2_impl_in; [|exact HF]. intros e [w t] He _ [E [Hun IH]]. simpl in *.
      apply out_edges_In in He. destruct He as [He Es]. assert (Hpe : p (e_dst e) = S t) by (apply Hedge; auto; now rewrite Es).
      repeat split; auto. intros Ht. apply IH; auto. congruence. }
    apply unf_sum; [now rewrite keepN_kind| |]; rewrite keepN_out by auto.
    + specialize (Hs ts HS). clear - HF' Hs. induction HF' as [|e wt es ts [_ [_ [E _]]] HF IH]; simpl in *; [discriminate|].
      rewrite E. destruct (S (snd wt)); [discriminate|]. auto.
    + clear - HF'. induction HF' as [|e wt es ts [E1 [_ [E2 E3]]] HF IH]; simpl; [constructor|].
      rewrite E2. destruct (S (snd wt)); simpl; auto.
  - intros u ts Hk HF Hp HS. simpl.
    assert (HF' : Forall2 (fun e t => unfolds g (e_dst e) t /\ p (e_dst e) = S t /\
                    (S t = true -> unfolds (keepN p g) (e_dst e) (prune t))) (out_edges g u) ts).
    { eapply Forall2_impl_in; [|exact HF]. intros e t He _ [Hun IH].
      apply out_edges_In in He. destruct He as [He Es]. assert (Hpe : p (e_dst e) = S t) by (apply Hedge; auto; now rewrite Es).
      repeat split; auto. intros Ht. apply IH; auto. congruence. }
    apply unf_prod; [now rewrite keepN_kind|]. rewrite keepN_out by auto.
    clear - HF'. induction HF' as [|e wt es ts [_ [E2 E3]] HF IH]; simpl; [constructor|].
    rewrite E2. destruct (S wt); simpl; auto.
Qed.

Lemma prune_leaves (P : D -> Prop) t : all_leaves P t -> all_leaves P (prune t).
Proof.
  induction t as [d|l IH|l IH] using pc_ind'; simpl; auto.
  - rewrite fold_and_Forall. intros H. rewrite fold_and_Forall. apply Forall_flat_map. rewrite Forall_forall in *.
    intros wt Hin. destruct (S (snd wt)); repeat constructor. simpl. auto.
  - rewrite fold_and_Forall. intros H. rewrite fold_and_Forall. apply Forall_flat_map. rewrite Forall_forall in *.
    intros wt Hin. destruct (S wt); repeat constructor. auto.
Qed.

Lemma prune_fin t : fin_sums t -> fin_sums (prune t).
Proof.
  unfold fin_sums. induction t as [d|l IH|l IH] using pc_ind'; simpl; auto.
  - rewrite !fold_and_Forall. intros [Hw H]. split.
    + clear - Hw. induction l as [|wt l IHl]; simpl in *; [constructor|]. inversion Hw; subst. destruct (S (snd wt)); simpl; auto.
    + apply Forall_flat_map. rewrite Forall_forall in *. intros wt Hin. destruct (S (snd wt)); repeat constructor. simpl. auto.
  - rewrite !fold_and_Forall. intros H. apply Forall_flat_map. rewrite Forall_forall in *. intros wt Hin.
    destruct (S wt); repeat constructor. auto.
Qed.
End Prune.
End Restrict.
