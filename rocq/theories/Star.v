(** * Star: circuits that are a sum over leaves, built leaf by leaf *)
From Coq Require Import List Arith Bool Lia Reals Lra.
From Verif Require Import Num Graph GraphFacts Spec SpecFacts Circuit EvalFacts Simplify NormalizeFacts Layout LayoutFacts TreeLocal TreeProb.
Import ListNotations.
Local Set Bullet Behavior "Strict Subproofs".

Section Star.
Context {D : Type}.

Definition star (l : list (num * D)) : pc D := PSum (map (fun wd => (fst wd, PLeaf (snd wd))) l).

Fixpoint leaf_nodes (n : id) (l : list (num * D)) : list (id * ukind D) :=
  match l with [] => [] | wd :: l' => (n, ULeaf (snd wd)) :: leaf_nodes (S n) l' end.
Fixpoint leaf_edges (p n : id) (l : list (num * D)) : list edge :=
  match l with [] => [] | wd :: l' => mkEdge p n (Some (fst wd)) :: leaf_edges p (S n) l' end.

Lemma lay_leaves p l : forall n, lay_children (fun wt : num * pc D => lay (snd wt)) (fun wt => Some (fst wt)) p (map (fun wd => (fst wd, PLeaf (snd wd))) l) n
  = (leaf_nodes n l, leaf_edges p n l, (n + length l)%nat).
Proof.
  induction l as [|wd l IH]; intros n; cbn [map lay_children leaf_nodes leaf_edges length]; [now rewrite Nat.add_0_r|].
  cbn [snd lay]. fold (@lay_children D (num * pc D) (fun wt => lay (snd wt)) (fun wt => Some (fst wt)) p). rewrite IH. cbn [fst app]. now rewrite Nat.add_succ_r.
Qed.

Lemma layout_star l : layout (star l) = mkGraph ((0%nat, USum) :: leaf_nodes 1 l) (leaf_edges 0 1 l).
Proof. unfold layout, star. cbn [lay]. now rewrite lay_leaves. Qed.

Lemma leaf_nodes_app n l l' : leaf_nodes n (l ++ l') = leaf_nodes n l ++ leaf_nodes (n + length l) l'.
Proof. revert n. induction l as [|wd l IH]; intros n; cbn [app leaf_nodes length]; [now rewrite Nat.add_0_r|]. now rewrite IH, Nat.add_succ_r. Qed.
Lemma leaf_edges_app p n l l' : leaf_edges p n (l ++ l') = leaf_edges p n l ++ leaf_edges p (n + length l) l'.
Proof. revert n. induction l as [|wd l IH]; intros n; cbn [app leaf_edges length]; [now rewrite Nat.add_0_r|]. now rewrite IH, Nat.add_succ_r. Qed.

Lemma leaf_nodes_ids n l : map fst (leaf_nodes n l) = seq n (length l).
Proof. revert n. induction l as [|wd l IH]; intros n; [reflexivity|]. cbn [leaf_nodes map fst length seq]. now rewrite IH. Qed.
Lemma leaf_edges_dst p n l e : In e (leaf_edges p n l) -> e_src e = p /\ (n <= e_dst e < n + length l)%nat.
Proof.
  revert n. induction l as [|wd l IH]; intros n H; [destruct H|]. cbn [leaf_edges length] in *. destruct H as [<-|H]; [cbn; lia|]. apply IH in H. lia.
Qed.

Lemma star_add l w (d : D) : add_edge (add_node (layout (star l)) (S (length l)) (ULeaf d)) 0%nat (S (length l)) (Some w) = layout (star (l ++ [(w, d)])).
Proof.
  rewrite !layout_star. unfold add_node. destruct (has_node _ _) eqn:H.
  { apply has_node_In in H. unfold node_ids in H. cbn [g_nodes map fst] in H. rewrite leaf_nodes_ids in H. destruct H as [H|H]; [discriminate|]. apply in_seq in H. lia. }
  unfold add_edge. cbn [g_nodes g_edges]. destruct (existsb _ _) eqn:X.
  { apply existsb_exists in X. destruct X as (e & He & X). apply leaf_edges_dst in He. unfold is_edge in X. apply andb_true_iff in X. destruct X as [_ X]. apply Nat.eqb_eq in X. lia. }
  rewrite leaf_nodes_app, leaf_edges_app. cbn [leaf_nodes leaf_edges fst snd Nat.add]. now rewrite app_comm_cons.
Qed.

Lemma leaf_edges_out p n l : filter (fun e => e_src e =? p) (leaf_edges p n l) = leaf_edges p n l.
Proof. revert n. induction l as [|wd l IH]; intros n; [reflexivity|]. cbn [leaf_edges filter e_src]. now rewrite Nat.eqb_refl, IH. Qed.

Lemma leaf_edges_weights p n l : map e_lw (leaf_edges p n l) = map (fun wd => Some (fst wd)) l.
Proof. revert n. induction l as [|wd l IH]; intros n; [reflexivity|]. cbn [leaf_edges map e_lw]. now rewrite IH. Qed.

Lemma set_weights_same f l : (forall wd, In wd l -> f (fst wd) = fst wd) -> set_weights 0%nat f (layout (star l)) = layout (star l).
Proof.
  intros H. rewrite layout_star. unfold set_weights. cbn [g_nodes g_edges]. f_equal.
  assert (G : forall n, map (fun e => if (e_src e =? 0)%nat then mkEdge (e_src e) (e_dst e) (option_map f (e_lw e)) else e) (leaf_edges 0 n l) = leaf_edges 0 n l); [|apply G].
  induction l as [|wd l IH]; intros n; [reflexivity|]. cbn [leaf_edges map e_src e_dst e_lw option_map Nat.eqb]. rewrite IH by (intros; apply H; now right). now rewrite (H wd) by now left.
Qed.

(** Normalising weights that sum to one changes nothing. *)
Lemma star_normalize l : l <> [] -> Forall lw_ok (map fst l) -> Rsum (map wexp (map fst l)) = 1%R -> normalize (layout (star l)) = Some (layout (star l)).
Proof.
  intros Hne Hok Hs. unfold normalize. assert (sum_ids (layout (star l)) = [0%nat]) as ->.
  { rewrite layout_star. unfold sum_ids. cbn [g_nodes filter snd map fst]. f_equal.
    assert (G : forall n, filter (fun p : id * ukind D => match snd p with USum => true | _ => false end) (leaf_nodes n l) = []); [|now rewrite G].
    clear. induction l as [|wd l IH]; intros n; [reflexivity|]. cbn [leaf_nodes filter snd]. apply IH. }
  cbn [foldM]. unfold sum_normalize. pose proof (lws_weights (layout (star l)) 0%nat) as Hl.
  assert (Ew : weights_of (layout (star l)) 0%nat = Some (map fst l)).
  { unfold weights_of, out_edges. rewrite layout_star. cbn [g_edges]. rewrite leaf_edges_out. clear. generalize 1%nat. unfold mapM.
    induction l as [|wd l IH]; intros n; [reflexivity|]. cbn [leaf_edges fold_right map e_lw]. now rewrite IH. }
  destruct (log_weighted_subcircuits (layout (star l)) 0%nat) as [q|]; [|congruence]. rewrite Hl in Ew. injection Ew as Ew.
  destruct q as [|p q]; [destruct l; [contradiction|discriminate]|]. destruct (logsumexp_weights (map fst l) Hok) as (z & Ez & X); [rewrite Hs; lra|].
  rewrite Ew, Ez. f_equal. apply set_weights_same. intros wd Hin. rewrite Hs in X.
  assert (z = 0%R) as -> by (apply exp_inv; rewrite X; symmetry; apply exp_0).
  rewrite Forall_forall in Hok. specialize (Hok (fst wd) (in_map fst l wd Hin)). destruct (fst wd); cbn in *; try tauto; try reflexivity. f_equal; lra.
Qed.

Lemma star_nonempty l : l <> [] -> sums_nonempty (star l).
Proof.
  intros H. unfold star. cbn [sums_nonempty]. split; [destruct l; [congruence|discriminate]|]. rewrite map_map. cbn [snd].
  apply Forall_map. apply Forall_forall. intros wd _. exact I.
Qed.

Lemma star_leaves P l : all_leaves P (star l) <-> Forall (fun wd => P (snd wd)) l.
Proof.
  unfold star. cbn [all_leaves]. rewrite map_map. cbn [snd all_leaves]. apply fold_and_Forall.
Qed.

Lemma star_sums P l : all_sums P (star l) <-> P (map fst l).
Proof.
  unfold star. cbn [all_sums]. rewrite !map_map. cbn [fst snd]. split; [tauto|]. intros H. split; auto. apply fold_and_Forall. apply Forall_forall. intros wd _. exact I.
Qed.

Lemma star_semR (val : D -> R) l : semR val (star l) = Rsum (map (fun wd => (wexp (fst wd) * val (snd wd))%R) l).
Proof. unfold star. cbn [semR]. now rewrite map_map. Qed.
End Star.
