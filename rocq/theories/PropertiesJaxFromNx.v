(** * Networkx circuits as layered circuits (C54) *)
From Verif Require MoveFacts.
From Coq Require Import List Arith Bool Lia Sorted Permutation Reals Lra ZArith.
From Verif Require Import Num Graph GraphFacts Spec SpecFacts Circuit EvalFacts VarFacts Interval Dist DistFacts TreeLocal SupportFacts NormalizeFacts BayesNet RegionCircuit PropertiesProb PropertiesInteraction
  JaxLayer JaxLayerFacts JaxSpec JaxMeaning PropertiesJaxLayer JaxFromNx JaxFromNxSpec JaxFromNxFacts JaxFromNxTotal.
Import ListNotations.
Local Set Bullet Behavior "Strict Subproofs".
Local Open Scope nat_scope.

(** ** The tree of the result *)

Section Statements.
Variable domain : nat -> nat.
Variables before after : R -> R.

(** The conversion neither raises nor changes the distribution: whatever the orders of the sets are, the density of the root
    of the layered circuit is the density of the circuit. *)
Definition C54_from_nx_full : Prop := forall g t o, layered_circuit g t -> smooth dist_vars t -> decomposable dist_vars t -> normalised t -> all_leaves dist_ok t -> all_leaves (leaf_fits domain) t ->
  (forall k, permutes (type_order o k)) -> (forall k c, permutes (scope_order o k c)) ->
  exists vs L, from_nx domain before after o g = Some (vs, L) /\
  forall env, density (fun c => env (nth c vs 0)) (tree L 0) = density env t.

(** If the conversion does not raise, its result has one node over all variables.  The node means the tree of the circuit up to
    the order of children, with normalised weights and with the leaves that input layers can hold.

    What is missing: units whose children are at different depths ([layered_circuit]), product units beside units over other
    variables ([wide]), truncated Gaussians and integers ([leaf_fits]). *)
Theorem C54_from_nx_partial g t o vs L : layered_circuit g t -> smooth dist_vars t -> decomposable dist_vars t -> all_leaves (leaf_fits domain) t ->
  (forall r, root g = Some r -> wide g r) -> (forall k, permutes (type_order o k)) -> (forall k c, permutes (scope_order o k c)) ->
  from_nx domain before after o g = Some (vs, L) ->
  StronglySorted lt vs /\ (forall v, In v vs <-> mentions dist_vars t v) /\
  number_of_nodes L = 1 /\ variables L = seq 0 (length vs) /\
  rearranged (tree L 0) (layer_tree domain before after vs t).
Proof.
  intros (Hwf & Hterm & r & Hr & Hg & Ht) Sm De Lf Wi Pt Ps H. unfold from_nx in H. destruct (circuit_variables_spec dist_vars g r t Hr Ht Sm) as (vars & Ev & Hs & Hm). rewrite Ev in H.
  unfold layers in H. rewrite Hr in H. destruct (layers_from g r) as [ls|] eqn:El; [|discriminate]. destruct (from_depth domain before after o g vars 1 ls) as [[|c cs]|] eqn:E; try discriminate. inversion H; subst vs L. clear H.
  assert (Fr : fine domain g vars r) by (exists t; repeat (split; [assumption|]); intros x Hx; now apply Hm).
  destruct Hg as (lv & Hlv0 & Hlv).
  destruct (from_depth_good domain before after g vars Hs r Fr Hterm lv Hlv0 Hlv (Wi r Hr) o Pt Ps ls 1 0 (c :: cs)) as [G P].
  - unfold layers_from in El. destruct (has_node g r); [|discriminate]. eapply bfs_loop_levels with (P := reach g r); eauto; [intros e He Hp; split; [eapply reach_step; eauto|auto]|intros x [<-|[]]; split; [apply reach_refl|exact Hlv0]].
  - intros x Hx. now apply (layers_from_In g r ls El).
  - intros x e Hx He. apply (layers_from_In g r ls El). apply (layers_from_In g r ls El) in Hx. apply out_edges_In in He as [He1 He2]. now apply (reach_step g r x).
  - now apply (layers_from_NoDup g r ls).
  - exact E.
  - destruct (layers_from_root g r ls El) as (ls' & ->). cbn [hd map concat] in P. inversion G as [|? ? Gc _]; subst.
    assert (Ec : c_nodes c = [r]).
    { pose proof (gd_some _ _ _ _ _ c Gc) as Ne. destruct (c_nodes c) as [|x xs]; [congruence|]. pose proof (Permutation_length P) as Pl. cbn in Pl. rewrite app_length in Pl. destruct xs; [|cbn in Pl; lia]. assert (X : In x [r]) by (apply (Permutation_in _ P); now left). destruct X as [<-|[]]. reflexivity. }
    split; [exact Hs|]. split; [exact Hm|]. split; [rewrite (gd_size _ _ _ _ _ c Gc), Ec; reflexivity|]. split.
    + destruct (gd_scope _ _ _ _ _ c Gc) as (s & _ & Ss & Is & Ed & Q). rewrite Ec in Q. specialize (Q r (or_introl eq_refl)). destruct (fine_scope domain g vars r t Fr Ht) as (s' & A & _ & _ & Qs). assert (s' = s) by congruence. subst s'.
      assert (s = vars) as ->. { apply sorted_lt_ext; auto. intros x. rewrite Qs. symmetry. apply Hm. } rewrite Ed. now apply column_all.
    + apply (gd_tree _ _ _ _ _ c Gc 0 r t); [rewrite Ec; reflexivity|exact Ht].
Qed.

(** ** The density of the result *)

Lemma rearranged_density env : forall a b, rearranged a b -> density env a = density env b.
Proof.
  unfold density. induction a as [d|l IH|l IH] using pc_ind'; intros b H; inversion H as [|l1 m l' P F|l1 m l' P F]; subst; [reflexivity| |]; cbn [semN].
  - rewrite (nsum_perm _ _ (Permutation_map _ P)). f_equal. assert (IH' : Forall (fun wt => forall b, rearranged (snd wt) b -> semN (fun d => nexp (ll1 d (env (dvar d)))) (snd wt) = semN (fun d => nexp (ll1 d (env (dvar d)))) b) m) by (eapply Permutation_Forall; eauto). clear -F IH'.
    induction F as [|x y m l' [A B] F IH]; [reflexivity|]. inversion IH'; subst. cbn [map]. rewrite IH by assumption. f_equal. rewrite A. f_equal. auto.
  - rewrite (nprod_perm _ _ (Permutation_map _ P)) by (apply Forall_map; apply Forall_forall; intros x _; apply semN_nonneg; intros; apply nexp_nonneg). f_equal. assert (IH' : Forall (fun t => forall b, rearranged t b -> semN (fun d => nexp (ll1 d (env (dvar d)))) t = semN (fun d => nexp (ll1 d (env (dvar d)))) b) m) by (eapply Permutation_Forall; eauto). clear -F IH'.
    induction F as [|x y m l' B F IH]; [reflexivity|]. inversion IH'; subst. cbn [map]. rewrite IH by assumption. f_equal. auto.
Qed.

(** Leaves that an input layer holds as they are: open intervals, Dirac distributions and normalised symbolic distributions. *)
Definition leaf_kept (d : dist) : Prop :=
  match d with
  | DUnif _ i => exists a b, i = iopen a b
  | DDirac _ _ _ => True
  | DSym _ p => Rsum (vals p) = 1%R
  | _ => False
  end.

Lemma div_one x : (x / 1 = x)%R.
Proof. field. Qed.

Lemma layer_leaf_density env vs d : StronglySorted lt vs -> In (dvar d) vs -> leaf_fits domain d -> leaf_kept d ->
  nexp (ll1 (layer_leaf domain before after vs d) (env (nth (column vs (dvar d)) vs 0))) = nexp (ll1 d (env (dvar d))).
Proof.
  intros Hs Hv Hf Hk. assert (Ec : nth (column vs (dvar d)) vs 0 = dvar d). { pose proof (column_index vs (dvar d) Hs Hv) as C. apply var_index_some in C. now apply nth_error_nth. } rewrite Ec.
  destruct d as [v i|v l c|v m s|v i m s|v p|v p]; cbn [layer_leaf dvar] in *; try contradiction.
  - destruct Hk as (a & b & ->). reflexivity.
  - reflexivity.
  - destruct Hf as [[Nk Nn] Hd]. cbn [leaf_kept] in Hk. rewrite Hk. set (x := env v). cbn [ll1]. set (q := map _ (seq 0 (domain v))).
    assert (Kq : keys q = map Z.of_nat (seq 0 (domain v))) by (unfold q, keys; rewrite map_map; reflexivity).
    assert (Nq : NoDup (keys q)). { rewrite Kq. apply FinFun.Injective_map_NoDup; [intros a b; apply Nat2Z.inj|apply seq_NoDup]. }
    destruct (fold_ll_key p x NInf) as [E|(k & w & Hin & -> & E)]; rewrite E.
    + destruct (fold_ll_key q x NInf) as [->|(k & w & Hin & Hx & ->)]; [reflexivity|]. unfold q in Hin. apply in_map_iff in Hin as (n & X & _). inversion X; subst k w.
      assert (Ab : ~ In (Z.of_nat n) (keys p) \/ exists w, In (Z.of_nat n, w) p). { destruct (in_dec Z.eq_dec (Z.of_nat n) (keys p)) as [Y|Y]; [right|now left]. apply in_map_iff in Y as ([k w] & Y1 & Y2). cbn in Y1. subst k. eauto. }
      destruct Ab as [Ab|(w & Hw)].
      * rewrite dget_absent by exact Ab. replace (0 / 1)%R with 0%R by field. rewrite nexp_nlog by (cbn; lra). reflexivity.
      * rewrite (dget_In p _ w Nk Hw). rewrite Hx, (fold_ll_in p _ w NInf Nk Hw) in E. rewrite div_one, E. reflexivity.
    + rewrite Forall_forall in Hd. assert (Hkk : In k (keys p)) by (apply in_map_iff; exists (k, w); auto). specialize (Hd k Hkk).
      assert (Hq : In (k, w) q). { unfold q. apply in_map_iff. exists (Z.to_nat k). split; [|apply in_seq; lia]. rewrite Z2Nat.id by lia. rewrite (dget_In p k w Nk Hin). now rewrite div_one. }
      rewrite (fold_ll_in q k w NInf Nq Hq). reflexivity.
Qed.

Lemma layer_tree_density env vs t : StronglySorted lt vs -> (forall v, mentions dist_vars t v -> In v vs) -> normalised t -> all_leaves (leaf_fits domain) t -> all_leaves leaf_kept t ->
  density (fun c => env (nth c vs 0)) (layer_tree domain before after vs t) = density env t.
Proof.
  intros Hs. unfold density. induction t as [d|l IH|l IH] using pc_ind'; intros Hm Hn Hf Hk; cbn [layer_tree semN].
  - cbn in Hf, Hk. assert (In (dvar d) vs) by (apply Hm; destruct d; cbn; auto). rewrite <- (layer_leaf_density env vs d) by assumption.
    assert (X : dvar (layer_leaf domain before after vs d) = column vs (dvar d)) by (destruct d; try contradiction; reflexivity). now rewrite X.
  - cbn in Hn, Hf, Hk. destruct Hn as [[W1 W2] Hn]. rewrite fold_and_Forall in *. rewrite map_map in W2. rewrite W2. f_equal. rewrite map_map. cbn [fst snd]. rewrite Forall_map in W1. cbn in Hm.
    assert (Hm' : forall wt, In wt l -> forall v, mentions dist_vars (snd wt) v -> In v vs). { intros wt Hw v Hv. apply Hm. now apply (fold_or_In (fun wt => mentions dist_vars (snd wt) v) l wt). }
    apply map_ext_in. intros wt Hw. rewrite Forall_forall in *. f_equal; [|exact (IH wt Hw (Hm' wt Hw) (Hn wt Hw) (Hf wt Hw) (Hk wt Hw))].
    rewrite div_one, nexp_nlog by (cbn; apply wexp_nonneg). symmetry. now apply nexp_wexp, W1.
  - cbn in Hn, Hf, Hk. rewrite fold_and_Forall in *. rewrite map_map. f_equal. apply map_ext_in. intros t Ht. rewrite Forall_forall in *. apply IH; [exact Ht| |exact (Hn t Ht)|exact (Hf t Ht)|exact (Hk t Ht)]. intros v Hv. apply Hm. cbn. now apply (fold_or_In (fun t => mentions dist_vars t v) l t).
Qed.

(** The result expresses the distribution of the circuit if no leaf changes. *)
Theorem C54_from_nx_density_partial g t o vs L : layered_circuit g t -> smooth dist_vars t -> decomposable dist_vars t -> normalised t -> all_leaves (leaf_fits domain) t -> all_leaves leaf_kept t ->
  (forall r, root g = Some r -> wide g r) -> (forall k, permutes (type_order o k)) -> (forall k c, permutes (scope_order o k c)) ->
  from_nx domain before after o g = Some (vs, L) ->
  forall env, density (fun c => env (nth c vs 0)) (tree L 0) = density env t.
Proof.
  intros H1 H2 H3 H4 H5 H6 H7 H8 H9 H env. destruct (C54_from_nx_partial g t o vs L H1 H2 H3 H5 H7 H8 H9 H) as (Hs & Hm & _ & _ & R'). rewrite (rearranged_density _ _ _ R').
  apply layer_tree_density; auto. intros v. apply Hm.
Qed.

(** The conversion does not raise for orderly circuits. *)
Theorem C54_from_nx_total_partial g t o : layered_circuit g t -> smooth dist_vars t -> decomposable dist_vars t -> all_leaves dist_ok t -> all_leaves (leaf_fits domain) t ->
  (forall r, root g = Some r -> wide g r /\ orderly g r) -> (forall k, permutes (type_order o k)) -> (forall k c, permutes (scope_order o k c)) ->
  exists vs L, from_nx domain before after o g = Some (vs, L).
Proof.
  intros (Hwf & Hterm & r & Hr & Hg & Ht) Sm De Ok Lf Wi Pt Ps. unfold from_nx. destruct (circuit_variables_spec dist_vars g r t Hr Ht Sm) as (vars & Ev & Hs & Hm). rewrite Ev.
  destruct (layers_from_total g r Hwf) as (ls & El); [now apply root_spec in Hr|]. unfold layers. rewrite Hr, El.
  assert (Fr : fine domain g vars r) by (exists t; repeat (split; [assumption|]); intros x Hx; now apply Hm).
  destruct Hg as (lv & Hlv0 & Hlv). destruct (Wi r Hr) as [W O].
  assert (Lv : levels_ok lv 0 ls). { unfold layers_from in El. destruct (has_node g r); [|discriminate]. eapply bfs_loop_levels with (P := reach g r); eauto; [intros e He Hp; split; [eapply reach_step; eauto|auto]|intros x [<-|[]]; split; [apply reach_refl|exact Hlv0]]. }
  assert (Re : forall x, In x (concat ls) -> reach g r x) by (intros x Hx; now apply (layers_from_In g r ls El)).
  assert (Cl : forall x e, In x (concat ls) -> In e (out_edges g x) -> In (e_dst e) (concat ls)) by (intros x e Hx He; apply (layers_from_In g r ls El); apply out_edges_In in He as [He1 He2]; apply (reach_step g r x); auto).
  pose proof (layers_from_NoDup g r ls El) as Nd.
  destruct (from_depth_total domain before after g vars Hs r Fr Hterm lv Hlv0 Hlv W O) with (o := o) (ls := ls) (depth := 1) (k := 0) as (cs & E & _); auto.
  - intros u d Hu K. destruct (reach_hereditary _ g r t u (hered_all_leaves dist_ok) Hterm Ht Ok Hu) as (t' & U' & L'). inversion U' as [u' d' Y|u' ts Y|u' ts Y]; subst u' t'; try congruence. assert (d' = d) by congruence. now subst.
  - rewrite E. destruct (from_depth_good domain before after g vars Hs r Fr Hterm lv Hlv0 Hlv W o Pt Ps ls 1 0 cs Lv Re Cl Nd E) as [_ P]. destruct (layers_from_root g r ls El) as (ls' & ->). cbn [hd] in P.
    destruct cs as [|c cs]; [apply Permutation_length in P; discriminate P|]. eauto.
Qed.
End Statements.

(** ** Where it fails *)

(** The scale of a Gaussian grows by 0.01. *)
Definition one_gauss : graph dist := mkGraph [(0, ULeaf (DGauss 0 0 1))] [].
Definition as_listed : orders := mkOrders (fun _ l => l) (fun _ _ l => l).
Lemma as_listed_types k : permutes (type_order as_listed k). Proof. intros l _. apply Permutation_refl. Qed.
Lemma as_listed_scopes k c : permutes (scope_order as_listed k c). Proof. intros l _. apply Permutation_refl. Qed.

Lemma one_gauss_circuit : layered_circuit one_gauss (PLeaf (DGauss 0 0 1)).
Proof.
  split; [|split].
  - constructor; cbn; try tauto; repeat constructor; cbn; tauto.
  - intros e d [].
  - exists 0. split; [reflexivity|]. split; [exists (fun _ => 0); split; [reflexivity|intros e []]|]. apply unf_leaf. reflexivity.
Qed.

Theorem C54_from_nx_refuted domain before after : ~ C54_from_nx_full domain before after.
Proof.
  intros H. destruct (H one_gauss (PLeaf (DGauss 0 0 1)) as_listed one_gauss_circuit I I I Rlt_0_1 Rlt_0_1 as_listed_types as_listed_scopes) as (vs & L & E & Den).
  assert (Wi : forall r, root one_gauss = Some r -> wide one_gauss r).
  { intros r _ u v n t t' _ _ A. inversion A as [|u' n' e A' He]. destruct He. }
  destruct (C54_from_nx_partial domain before after one_gauss (PLeaf (DGauss 0 0 1)) as_listed vs L one_gauss_circuit I I Rlt_0_1 Wi as_listed_types as_listed_scopes E) as (_ & _ & _ & _ & R').
  specialize (Den (fun _ => 0%R)). rewrite (rearranged_density _ _ _ R') in Den. unfold density in Den. cbn [semN layer_tree layer_leaf ll1] in Den. unfold gauss_logpdf in Den. destruct (Rlt_dec 0 (1 + 1 / 100)); [|lra]. destruct (Rlt_dec 0 1); [|lra].
  assert (P0 : (0 < GaussInt.phi 0)%R) by apply GaussInt.phi_pos. 
  replace ((0 - 0) / (1 + 1 / 100))%R with 0%R in Den by field. replace ((0 - 0) / 1)%R with 0%R in Den by field. rewrite !nexp_nlog in Den.
  - inversion Den as [X]. assert (GaussInt.phi 0 / (1 + 1 / 100) < GaussInt.phi 0 / 1)%R; [|lra]. unfold Rdiv. apply Rmult_lt_compat_l; [exact P0|]. apply Rinv_lt_contravar; lra.
  - cbn. left. apply Rdiv_lt_0_compat; lra.
  - cbn. left. apply Rdiv_lt_0_compat; lra.
Qed.

(** A product of leaf 4 and of two products, of leaves 0 and 1 and of leaves 2 and 3: both inner product layers get all four
    leaf layers as children, so their variables are not those of the inner products any more and the outer product loses them. *)
Definition spike (v : nat) : dist := DDirac v 0 (Fin 1).
Definition nested : graph dist := mkGraph
  [(0, UProd); (1, UProd); (2, UProd); (3, ULeaf (spike 4)); (4, ULeaf (spike 0)); (5, ULeaf (spike 1)); (6, ULeaf (spike 2)); (7, ULeaf (spike 3))]
  [mkEdge 0 1 None; mkEdge 0 2 None; mkEdge 0 3 None; mkEdge 1 4 None; mkEdge 1 5 None; mkEdge 2 6 None; mkEdge 2 7 None].
Definition nested_tree : pc dist := PProd [PProd [PLeaf (spike 0); PLeaf (spike 1)]; PProd [PLeaf (spike 2); PLeaf (spike 3)]; PLeaf (spike 4)].

Example C54_lost_products domain before after : exists L, unfolds nested 0 nested_tree /\ from_nx domain before after as_listed nested = Some (seq 0 5, L) /\
  tree L 0 = PProd [PLeaf (spike 4)] /\
  density (fun _ => 0%R) (tree L 0) = Fin 1 /\ density (fun v => if v =? 0 then 1%R else 0%R) (tree L 0) = Fin 1 /\ density (fun v => if v =? 0 then 1%R else 0%R) nested_tree = Fin 0.
Proof.
  eexists. split; [repeat (econstructor; try reflexivity)|]. split; [cbv; reflexivity|]. split; [reflexivity|].
  assert (E : nexp (nlog (Fin 1)) = Fin 1) by (apply nexp_nlog; cbn; lra).
  assert (R0 : Reqb 0 0 = true) by (destruct (Reqb_spec 0 0); congruence). assert (R1 : Reqb 1 0 = false) by (destruct (Reqb_spec 1 0); [lra|reflexivity]).
  unfold density. cbn -[nlog nexp]. change Rdefinitions.RbaseSymbolsImpl.R0 with 0%R. change Rdefinitions.RbaseSymbolsImpl.R1 with 1%R. rewrite R0, R1, E. cbn. split; [f_equal; ring|]. split; [f_equal; ring|]. f_equal. ring.
Qed.

(** A mixture of two products with leaves of different families over variable 0 raises a KeyError. *)
Definition families : graph dist := mkGraph
  [(0, USum); (1, UProd); (2, UProd); (3, ULeaf (spike 0)); (4, ULeaf (spike 1)); (5, ULeaf (DUnif 0 (iopen 0 1))); (6, ULeaf (spike 1))]
  [mkEdge 0 1 (Some (Fin (ln (1 / 2)))); mkEdge 0 2 (Some (Fin (ln (1 / 2)))); mkEdge 1 3 None; mkEdge 1 4 None; mkEdge 2 5 None; mkEdge 2 6 None].
Example C54_mixed_families domain before after : from_nx domain before after as_listed families = None.
Proof. cbv. reflexivity. Qed.

(** Several subcircuits of one product in the same layer: their columns are added up, so that the node gets one child that may be
    none of them.  (This does not happen in decomposable circuits.) *)
Definition total (k : nat * nat) (l : list (nat * nat * nat)) : nat :=
  list_sum (map snd (filter (fun e => (fst (fst e) =? fst k) && (snd (fst e) =? snd k)) l)).
Definition key_lt (a b : nat * nat) : Prop := fst a < fst b \/ fst a = fst b /\ snd a < snd b.

Lemma key_le_spec a b : key_le a b = true <-> key_lt a b \/ a = b.
Proof.
  unfold key_le, key_lt. rewrite orb_true_iff, andb_true_iff, Nat.ltb_lt, Nat.eqb_eq, Nat.leb_le. destruct a as [a1 a2], b as [b1 b2]. cbn [fst snd]. split.
  - intros [H|[-> H]]; [auto|]. destruct (Nat.eq_dec a2 b2) as [->|N]; [now right|left; right; lia].
  - intros [[H|[H H']]|E]; [auto|right; lia|injection E as -> ->; right; lia].
Qed.
Lemma key_le_total a b : key_le a b = false -> key_lt b a.
Proof.
  unfold key_le, key_lt. rewrite orb_false_iff, andb_false_iff, Nat.ltb_ge, Nat.eqb_neq, Nat.leb_gt. lia.
Qed.

Definition entry_le (a b : nat * nat * nat) : Prop := key_lt (fst a) (fst b) \/ fst a = fst b.
Lemma entry_le_trans a b c : entry_le a b -> entry_le b c -> entry_le a c.
Proof.
  unfold entry_le, key_lt. destruct a as [[a1 a2] a3], b as [[b1 b2] b3], c as [[c1 c2] c3]. cbn [fst snd]. intros [H|H] [H'|H']; try (injection H as -> ->); try (injection H' as -> ->); auto. left. lia.
Qed.
Lemma insert_le e l : StronglySorted entry_le l -> StronglySorted entry_le (insert_entry e l).
Proof.
  induction 1 as [|x l Hs IH Hf]; cbn [insert_entry]; [repeat constructor|]. destruct (key_le (fst e) (fst x)) eqn:K.
  - apply key_le_spec in K. constructor; [now constructor|]. constructor; [exact K|]. eapply Forall_impl; [|exact Hf]. intros y. now apply entry_le_trans.
  - apply key_le_total in K. constructor; [exact IH|]. eapply Permutation_Forall; [apply Permutation_sym, insert_perm|]. constructor; [now left|exact Hf].
Qed.
Lemma sort_le l : StronglySorted entry_le (sort_entries l).
Proof. unfold sort_entries. induction l as [|e l IH]; [constructor|]. cbn [fold_right]. now apply insert_le. Qed.

Lemma total_perm k l l' : Permutation l l' -> total k l = total k l'.
Proof.
  unfold total. induction 1 as [|x l l' P IH|x y l|l l' l'' P IH P' IH']; cbn [filter]; auto.
  - destruct (_ && _); cbn [map list_sum fold_right]; auto.
  - destruct ((fst (fst x) =? fst k) && _), ((fst (fst y) =? fst k) && _); cbn [map list_sum fold_right]; lia.
  - congruence.
Qed.

Lemma total_cons k e l : total k (e :: l) = (if (fst (fst e) =? fst k) && (snd (fst e) =? snd k) then snd e else 0) + total k l.
Proof. unfold total. cbn [filter]. now destruct (_ && _). Qed.

Lemma duplicates_spec l : (forall k, total k (sum_duplicates l) = total k l) /\ (forall k, In k (map fst (sum_duplicates l)) <-> In k (map fst l)) /\
  (StronglySorted entry_le l -> StronglySorted (fun a b => key_lt (fst a) (fst b)) (sum_duplicates l)).
Proof.
  induction l as [|[k v] l (I1 & I2 & I3)]; [cbn; split; [reflexivity|split; [tauto|intros _; constructor]]|]. cbn [sum_duplicates]. destruct (sum_duplicates l) as [|[k' v'] r] eqn:E.
  - split; [intros k0; rewrite !total_cons, <- I1; reflexivity|]. split; [|repeat constructor]. intros k0. cbn [map fst In]. rewrite <- I2. cbn. tauto.
  - destruct ((fst k =? fst k') && (snd k =? snd k')) eqn:K.
    + apply andb_true_iff in K. rewrite !Nat.eqb_eq in K. assert (k = k') as -> by (destruct k, k'; cbn in K; destruct K; congruence). split; [|split].
      * intros k0. rewrite !total_cons, <- I1, total_cons. cbn [fst snd]. destruct (_ && _); lia.
      * intros k0. cbn [map fst In]. rewrite <- I2. cbn [map fst In]. tauto.
      * intros Hs. inversion Hs as [|? ? Hs' Hf]; subst. specialize (I3 Hs'). inversion I3 as [|? ? S1 S2]; subst. now constructor.
    + split; [|split].
      * intros k0. rewrite !(total_cons k0 (k, v)), <- I1. reflexivity.
      * intros k0. cbn [map fst In]. rewrite <- I2. cbn [map fst In]. tauto.
      * intros Hs. inversion Hs as [|? ? Hs' Hf]; subst. specialize (I3 Hs'). constructor; [exact I3|].
        apply Forall_forall. intros e He. assert (Hk : In (fst e) (map fst l)) by (apply I2; now apply in_map). apply in_map_iff in Hk. destruct Hk as (x & Ex & Hx). rewrite Forall_forall in Hf. specialize (Hf x Hx).
        unfold entry_le in Hf. rewrite Ex in Hf. cbn [fst] in *. destruct Hf as [Hf|Hf]; [exact Hf|]. exfalso.
        assert (X : k = k'); [|rewrite X, !Nat.eqb_refl in K; discriminate].
        destruct He as [He|He]; [rewrite <- He in Hf; exact Hf|]. inversion I3 as [|? ? S1 S2]; subst. rewrite Forall_forall in S2. specialize (S2 e He). cbn [fst] in S2.
        (* the first key of the tail is at least k, and less than the key of e, which is k *)
        assert (Hk' : In k' (map fst l)) by (apply I2; now left). apply in_map_iff in Hk'. destruct Hk' as (y & Ey & Hy). inversion Hs as [|? ? _ Hf']; subst. rewrite Forall_forall in Hf'. specialize (Hf' y Hy).
        unfold entry_le, key_lt in Hf', S2. cbn [fst snd] in Hf'. destruct Hf' as [Hf'|Hf']; [exfalso; lia|exact Hf'].
Qed.

Theorem C54_duplicates_added l : NoDup (map fst (sum_duplicates (sort_entries l))) /\ (forall k, In k (map fst (sum_duplicates (sort_entries l))) <-> In k (map fst l)) /\
  forall k v, In (k, v) (sum_duplicates (sort_entries l)) -> v = total k l.
Proof.
  destruct (duplicates_spec (sort_entries l)) as (D1 & D2 & D3). specialize (D3 (sort_le l)).
  assert (N : NoDup (map fst (sum_duplicates (sort_entries l)))).
  { clear - D3. induction D3 as [|e r _ IH Hf]; cbn [map]; constructor; auto. intros H. apply in_map_iff in H. destruct H as (x & Ex & Hx). rewrite Forall_forall in Hf. specialize (Hf x Hx). rewrite Ex in Hf.
    unfold key_lt in Hf. lia. }
  split; [exact N|]. split.
  - intros k. rewrite D2. split; apply Permutation_in; [|apply Permutation_sym]; apply Permutation_map, sort_perm.
  - intros k v Hin. rewrite <- (total_perm k _ _ (sort_perm l)), <- D1. revert N Hin. generalize (sum_duplicates (sort_entries l)) as r. clear. induction r as [|e r IH]; intros N Hin; [contradiction|].
    cbn [map] in N. inversion N as [|? ? N1 N2]; subst. rewrite total_cons. destruct Hin as [->|Hin].
    + cbn [fst snd]. rewrite !Nat.eqb_refl. cbn [andb]. assert (total k r = 0) as ->; [|lia]. clear - N1. cbn [fst] in N1. induction r as [|x r IH]; [reflexivity|]. rewrite total_cons.
      rewrite IH by (intros H; apply N1; now right). destruct ((fst (fst x) =? fst k) && (snd (fst x) =? snd k)) eqn:K; [|reflexivity]. exfalso. apply N1. left.
      apply andb_true_iff in K. rewrite !Nat.eqb_eq in K. destruct (fst x), k. cbn in K. destruct K. congruence.
    + destruct ((fst (fst e) =? fst k) && (snd (fst e) =? snd k)) eqn:K; [|now apply IH]. exfalso. apply N1.
      apply andb_true_iff in K. rewrite !Nat.eqb_eq in K. assert (fst e = k) as -> by (destruct (fst e), k; cbn in K; destruct K; congruence). now apply (in_map fst) in Hin.
Qed.

Definition squared : graph dist := mkGraph [(0, UProd); (1, ULeaf (spike 0)); (2, ULeaf (DDirac 0 1 (Fin 1)))] [mkEdge 0 1 None; mkEdge 0 2 None].
Example C54_same_scope domain before after : exists L, from_nx domain before after as_listed squared = Some ([0], L) /\ tree L 0 = PProd [PLeaf (DDirac 0 1 (Fin 1))].
Proof. eexists. split; [cbv; reflexivity|]. reflexivity. Qed.

(** ** A mixture of two products *)
Definition coin (p : R) : dist := DSym 1 [(0%Z, p); (1%Z, (1 - p)%R)].
Definition half : num := nlog (Fin (1 / 2)).
Definition mix : graph dist := mkGraph
  [(0, USum); (1, UProd); (2, UProd); (3, ULeaf (DUnif 0 (iopen 0 1))); (4, ULeaf (coin (1 / 2))); (5, ULeaf (DUnif 0 (iopen 2 4))); (6, ULeaf (coin (1 / 4)))]
  [mkEdge 0 1 (Some half); mkEdge 0 2 (Some half); mkEdge 1 3 None; mkEdge 1 4 None; mkEdge 2 5 None; mkEdge 2 6 None].
Definition mix_at (u : id) : pc dist :=
  let leaf d := PLeaf d in
  let left := PProd [leaf (DUnif 0 (iopen 0 1)); leaf (coin (1 / 2))] in
  let right := PProd [leaf (DUnif 0 (iopen 2 4)); leaf (coin (1 / 4))] in
  match u with
  | 0 => PSum [(half, left); (half, right)] | 1 => left | 2 => right
  | 3 => leaf (DUnif 0 (iopen 0 1)) | 4 => leaf (coin (1 / 2)) | 5 => leaf (DUnif 0 (iopen 2 4)) | _ => leaf (coin (1 / 4))
  end.
Definition mix_level (u : id) : nat := match u with 0 => 0 | 1 | 2 => 1 | _ => 2 end.

Lemma mix_unfolds u : u < 7 -> unfolds mix u (mix_at u).
Proof.
  intros H. do 7 (destruct u as [|u]; [cbn [mix_at]; unfold half; repeat (first [apply unf_leaf; reflexivity|apply unf_sum; [reflexivity|discriminate|]|apply unf_prod; [reflexivity|]|apply Forall2_cons; [|]|apply Forall2_nil|split; [reflexivity|]])|]). lia.
Qed.

Lemma mix_circuit : layered_circuit mix (mix_at 0).
Proof.
  split; [|split].
  - constructor; cbn; [repeat constructor; cbn; intuition discriminate|repeat constructor; cbn; intuition congruence| |]; intros e He; repeat (destruct He as [<-|He]; [cbn; tauto|]); destruct He.
  - intros e d He. repeat (destruct He as [<-|He]; [cbn; discriminate|]). destruct He.
  - exists 0. split; [reflexivity|]. split; [|apply mix_unfolds; lia]. exists mix_level. split; [reflexivity|]. intros e He _. repeat (destruct He as [<-|He]; [reflexivity|]). destruct He.
Qed.

Lemma mix_away u n : away mix 0 u n -> u < 7 /\ n = mix_level u.
Proof.
  induction 1 as [|u n e A [L ->] He Hs]; [cbn; split; [lia|reflexivity]|]. subst u. cbn in He. repeat (destruct He as [<-|He]; [cbn; split; [lia|reflexivity]|]). destruct He.
Qed.

Lemma mix_tree u t : u < 7 -> unfolds mix u t -> t = mix_at u.
Proof. intros L U. exact (unfolds_det _ _ _ U _ (mix_unfolds u L)). Qed.

Lemma mix_fine : smooth dist_vars (mix_at 0) /\ decomposable dist_vars (mix_at 0) /\ normalised (mix_at 0) /\ all_leaves dist_ok (mix_at 0) /\ all_leaves (leaf_fits (fun _ => 2)) (mix_at 0) /\ all_leaves leaf_kept (mix_at 0).
Proof.
  assert (H : wexp half = (1 / 2)%R) by (apply ModeFacts.wexp_nlog; lra).
  split; [cbn; intuition|]. split; [cbn; repeat split; intros; lia|]. split; [|split; [|split]].
  - split; [split; [|cbn [map fst]; rewrite H; cbn; lra]|cbn; tauto]. unfold half. rewrite nlog_Fin_pos by lra. repeat constructor.
  - cbn. repeat split; try (eexists _, _; split; [reflexivity|split; [reflexivity|lra]]); repeat constructor; cbn; try lra; intuition discriminate.
  - cbn. repeat split; repeat constructor; cbn; try lra; try lia; intuition discriminate.
  - cbn. repeat split; try (eexists _, _; reflexivity); lra.
Qed.

Lemma mix_orderly r : root mix = Some r -> wide mix r /\ orderly mix r.
Proof.
  intros H. assert (r = 0) by (cbn in H; congruence). subst r. clear H. split.
  - intros u v n t t' K A B U U' x Hx. apply mix_away in A as [Lu ->], B as [Lv E]. apply mix_tree in U; [|exact Lu]. apply mix_tree in U'; [|exact Lv]. subst t t'.
    do 7 (destruct u as [|u]; [cbn in K; try discriminate K; do 7 (destruct v as [|v]; [cbn in E; try discriminate E; cbn in *; tauto|]); lia|]). lia.
  - constructor.
    + intros u v n t t' A B U U'. apply mix_away in A as [Lu ->], B as [Lv E]. apply mix_tree in U; [|exact Lu]. apply mix_tree in U'; [|exact Lv]. subst t t'.
      do 7 (destruct u as [|u]; [do 7 (destruct v as [|v]; [cbn in E; try discriminate E; cbn; split; intros [d X]; try discriminate X; eauto|]); lia|]). lia.
    + intros u v n t t' A B U U' M. apply mix_away in A as [Lu ->], B as [Lv E]. apply mix_tree in U; [|exact Lu]. apply mix_tree in U'; [|exact Lv]. subst t t'. pose proof (M 0) as M0. clear M.
      do 7 (destruct u as [|u]; [do 7 (destruct v as [|v]; [cbn in E; try discriminate E; cbn in *; try exact I; lia|]); lia|]). lia.
    + intros u v n t t' A B U U' (l & ->). apply mix_away in A as [Lu ->], B as [Lv E]. apply mix_tree in U; [|exact Lu]. apply mix_tree in U'; [|exact Lv]. subst t'.
      assert (u = 0) by (do 7 (destruct u as [|u]; [cbn in U; try discriminate U; reflexivity|]); lia). subst u. rewrite U. exists 2, 2.
      assert (Ab : forall w, w < 3 -> about (mix_at w) 2). { intros w Lw. exists [0; 1]. split; [repeat constructor; cbn; intuition discriminate|]. split; [reflexivity|]. intros x. do 3 (destruct w as [|w]; [cbn; intuition|]). lia. }
      split; [apply Ab; lia|]. split; [apply Ab|now left]. do 7 (destruct v as [|v]; [cbn in E; try discriminate E; lia|]). lia.
    + intros u n t A U. apply mix_away in A as [Lu ->]. apply mix_tree in U; [|exact Lu]. subst t. do 7 (destruct u as [|u]; [first [exists 0; cbn; tauto|exists 1; cbn; tauto]|]). lia.
Qed.

(** The layered circuit of the mixture exists, whatever the orders of the sets, and has the same density. *)
Example C54_from_nx_case before after o : (forall k, permutes (type_order o k)) -> (forall k c, permutes (scope_order o k c)) ->
  exists L, from_nx (fun _ => 2) before after o mix = Some ([0; 1], L) /\ variables L = [0; 1] /\ rearranged (tree L 0) (layer_tree (fun _ => 2) before after [0; 1] (mix_at 0)) /\
  forall env, density (fun c => env (nth c [0; 1] 0)) (tree L 0) = density env (mix_at 0).
Proof.
  intros Pt Ps. destruct mix_fine as (Sm & De & No & Ok & Fi & Ke).
  destruct (C54_from_nx_total_partial (fun _ => 2) before after mix (mix_at 0) o mix_circuit Sm De Ok Fi mix_orderly Pt Ps) as (vs & L & E).
  destruct (C54_from_nx_partial (fun _ => 2) before after mix (mix_at 0) o vs L mix_circuit Sm De Fi (fun r Hr => proj1 (mix_orderly r Hr)) Pt Ps E) as (Hs & Hm & _ & Hv & R').
  assert (vs = [0; 1]) as ->. { apply sorted_lt_ext; [exact Hs|repeat constructor|]. intros x. rewrite Hm. cbn. intuition. }
  exists L. split; [exact E|]. split; [exact Hv|]. split; [exact R'|].
  exact (C54_from_nx_density_partial (fun _ => 2) before after mix (mix_at 0) o [0; 1] L mix_circuit Sm De No Fi Ke (fun r Hr => proj1 (mix_orderly r Hr)) Pt Ps E).
Qed.

(** ** States as columns *)

(** Numpy's index: the state [k] of [n] columns is written to column [i]. *)
Definition column_of (n : nat) (k : Z) (i : nat) : Prop := (k = Z.of_nat i \/ k = Z.of_nat i - Z.of_nat n)%Z.

Lemma set_at_length i (v : R) : forall l, length (set_at i v l) = length l.
Proof. induction i as [|i IH]; intros [|x l]; cbn; auto. Qed.

Lemma set_at_nth i (v : R) j : forall l, i < length l -> nth j (set_at i v l) 0%R = if j =? i then v else nth j l 0%R.
Proof. revert j. induction i as [|i IH]; intros j [|x l] H; cbn in H; try lia; destruct j as [|j]; cbn; auto. apply IH. lia. Qed.

Lemma state_index_spec n k i : state_index n k = Some i <-> i < n /\ column_of n k i.
Proof.
  unfold state_index, column_of. destruct (Z.leb_spec 0 k), (Z.ltb_spec k (Z.of_nat n)); cbn [andb].
  2-4: destruct (Z.leb_spec (- Z.of_nat n) k), (Z.ltb_spec k 0); cbn [andb].
  all: split; [intros E; try discriminate; injection E as <-|intros [H' C]]; try (f_equal; lia); try lia.
Qed.

(** The row of a symbolic distribution: each column has the last probability that is written to it; states beyond the columns raise. *)
Theorem C54_states_written n p : (exists row, probability_row n p = Some row) <-> Forall (fun k => - Z.of_nat n <= k < Z.of_nat n)%Z (keys p).
Proof.
  unfold probability_row. generalize (repeat 0%R n) as row0. induction p as [|[k q] p IH]; intros row0; cbn [foldM keys map fst snd]; [split; [constructor|eauto]|].
  destruct (state_index n k) as [i|] eqn:E.
  - apply state_index_spec in E. destruct E as [Hi C]. unfold column_of in C. rewrite IH. split; [intros H; constructor; auto; lia|intros H; now inversion H].
  - split; [intros (row & X); discriminate X|]. intros H. inversion H as [|? ? Hk _]; subst. exfalso. destruct (Z.leb_spec 0 k).
    + assert (X : state_index n k = Some (Z.to_nat k)) by (apply state_index_spec; unfold column_of; lia). congruence.
    + assert (X : state_index n k = Some (Z.to_nat (k + Z.of_nat n))) by (apply state_index_spec; unfold column_of; lia). congruence.
Qed.

Theorem C54_states_read n p row : probability_row n p = Some row -> length row = n /\
  (forall i p1 k q p2, i < n -> p = p1 ++ (k, q) :: p2 -> column_of n k i -> (forall k', In k' (keys p2) -> ~ column_of n k' i) -> nth i row 0%R = q) /\
  (forall i, i < n -> (forall k, In k (keys p) -> ~ column_of n k i) -> nth i row 0%R = 0%R).
Proof.
  unfold probability_row.
  assert (G : forall p row0 row, length row0 = n -> foldM (fun row kv => match state_index n (fst kv) with None => None | Some i => Some (set_at i (snd kv) row) end) p row0 = Some row ->
    length row = n /\ (forall i, i < n -> (forall k, In k (keys p) -> ~ column_of n k i) -> nth i row 0%R = nth i row0 0%R)).
  { clear. induction p as [|[k q] p IH]; intros row0 row L E; cbn [foldM fst snd] in E; [injection E as <-; auto|]. destruct (state_index n k) as [j|] eqn:Ej; [|discriminate].
    destruct (IH (set_at j q row0) row) as (I1 & I2); [now rewrite set_at_length|exact E|]. split; [exact I1|]. intros i Hi Hk. rewrite I2 by (auto; intros k' Hk'; apply Hk; now right).
    apply state_index_spec in Ej. rewrite set_at_nth by lia. destruct (Nat.eqb_spec i j) as [->|]; [|reflexivity]. exfalso. apply (Hk k); [now left|tauto]. }
  intros E. destruct (G p (repeat 0%R n) row (repeat_length _ _) E) as (G1 & G2). split; [exact G1|]. split.
  - intros i p1 k q p2 Hi -> C H.
    assert (S0 : forall p1 row0, length row0 = n -> foldM (fun row kv => match state_index n (fst kv) with None => None | Some i => Some (set_at i (snd kv) row) end) (p1 ++ (k, q) :: p2) row0 = Some row -> nth i row 0%R = q).
    { clear p1 E G1 G2. induction p1 as [|[k1 q1] p1 IH]; intros row0 L E; cbn [app foldM fst snd] in E.
      - assert (X : state_index n k = Some i) by (apply state_index_spec; auto). rewrite X in E. destruct (G p2 (set_at i q row0) row) as (_ & G2); [now rewrite set_at_length|exact E|]. rewrite G2 by auto. rewrite set_at_nth by lia. now rewrite Nat.eqb_refl.
      - destruct (state_index n k1) as [j|]; [|discriminate]. apply (IH (set_at j q1 row0)); [now rewrite set_at_length|exact E]. }
    apply (S0 p1 (repeat 0%R n)); [apply repeat_length|exact E].
  - intros i Hi H. rewrite (G2 i Hi H). apply nth_repeat.
Qed.

(** A discrete layer reads the same columns: for a state within the range the entry of its column. *)
Theorem C54_states_evaluated ps k : (forall row, In row ps -> - Z.of_nat (length row) <= k < Z.of_nat (length row))%Z ->
  exists v, input_ll (IDiscrete ps) (IZR k) = Some v /\ Forall2 (fun row l => exists i, i < length row /\ column_of (length row) k i /\ nth_error (normalized_log_probabilities row) i = Some l) ps v.
Proof.
  intros H. cbn [input_ll]. assert (Ek : astype_int (IZR k) = k).
  { unfold astype_int. destruct (Rltb (IZR k) 0); [rewrite <- opp_IZR, !MoveFacts.Int_part_IZR; lia|apply MoveFacts.Int_part_IZR]. }
  rewrite Ek. clear Ek. unfold mapM. induction ps as [|row ps IH]; [exists []; split; [reflexivity|constructor]|].
  destruct IH as (v & E & F); [intros; apply H; now right|]. rewrite E. specialize (H row (or_introl eq_refl)).
  assert (L : length (normalized_log_probabilities row) = length row) by apply map_length.
  set (i := Z.to_nat (if (k <? 0)%Z then k + Z.of_nat (length row) else k)). assert (Hi : i < length row) by (unfold i; destruct (Z.ltb_spec k 0); lia).
  destruct (nth_error (normalized_log_probabilities row) i) as [l|] eqn:El; [|apply nth_error_None in El; lia].
  exists (l :: v). split.
  - unfold gatherZ, gather. rewrite L. fold i. rewrite Nat.min_l by lia. now rewrite El.
  - constructor; [|exact F]. exists i. split; [exact Hi|]. split; [|exact El]. unfold column_of, i. destruct (Z.ltb_spec k 0); lia.
Qed.

Example C54_evaluated_case : exists v, input_ll (IDiscrete [[Fin 0; Fin 1]%R]) (-1)%R = Some [v] /\ nth_error (normalized_log_probabilities [Fin 0; Fin 1]%R) 1 = Some v.
Proof.
  destruct (C54_states_evaluated [[Fin 0; Fin 1]%R] (-1)) as (v & E & F); [intros row [<-|[]]; cbn; lia|].
  inversion F as [|? l ? ? (i & Hi & C & N) F']; subst. inversion F'; subst. exists l. split; [exact E|]. cbn in Hi. assert (i = 1) as -> by (unfold column_of in C; cbn in C; lia). exact N.
Qed.

(** A state -1 takes the last column. *)
Example C54_states_case : probability_row 3 [(0%Z, (1/4)%R); ((-1)%Z, (3/4)%R)] = Some [1/4; 0; 3/4]%R.
Proof. reflexivity. Qed.

Print Assumptions C54_from_nx_partial.
Print Assumptions C54_from_nx_density_partial.
Print Assumptions C54_from_nx_total_partial.
Print Assumptions C54_from_nx_refuted.
Print Assumptions C54_duplicates_added.
Print Assumptions C54_states_written.
Print Assumptions C54_states_read.
Print Assumptions C54_states_evaluated.
