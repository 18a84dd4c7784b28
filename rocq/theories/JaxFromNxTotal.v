(** * JaxFromNxTotal: from_nx does not raise for orderly circuits *)
From Coq Require Import List Arith Bool Lia Sorted Permutation Reals Lra ZArith.
From Verif Require Import Num Graph GraphFacts Spec SpecFacts Circuit EvalFacts VarFacts Interval Dist DistFacts TreeLocal SimplifyFacts RegionCircuit
  JaxLayer JaxSpec JaxFromNx JaxFromNxSpec JaxFromNxFacts.
Import ListNotations.
Local Set Bullet Behavior "Strict Subproofs".
Local Open Scope nat_scope.

Lemma mapM_total {A B} (f : A -> option B) l : (forall a, In a l -> exists b, f a = Some b) -> exists l', mapM f l = Some l'.
Proof.
  induction l as [|a l IH]; intros H; [exists []; reflexivity|]. destruct (H a (or_introl eq_refl)) as (b & Hb). destruct IH as (l' & Hl); [intros; apply H; now right|]. exists (b :: l'). cbn [mapM]. now rewrite Hb, Hl.
Qed.

Lemma mapM_in {A B} (f : A -> option B) l l' b : mapM f l = Some l' -> In b l' -> exists a, In a l /\ f a = Some b.
Proof.
  revert l'. induction l as [|a l IH]; intros l' H Hb; cbn [mapM] in H; [inversion H; subst; destruct Hb|]. destruct (f a) eqn:E; [|discriminate]. destruct (mapM f l) eqn:F; [|discriminate]. inversion H; subst. destruct Hb as [<-|Hb]; [exists a; split; [now left|auto]|]. destruct (IH _ eq_refl Hb) as (a' & ? & ?). exists a'. split; [now right|auto].
Qed.

Lemma mapM_in_l {A B} (f : A -> option B) l l' a : mapM f l = Some l' -> In a l -> exists b, In b l' /\ f a = Some b.
Proof.
  intros H Ha. apply In_nth_error in Ha as (k & Hk). destruct (mapM_nth_error f l l' k a H Hk) as (b & Hb & Hn). exists b. split; [now apply nth_error_In in Hn|exact Hb].
Qed.

Lemma in_first {A} (l : list A) a l' : l = a :: l' -> In (0, a) (enumerate l).
Proof. intros ->. apply (proj2 (in_enumerate (a :: l') 0 a)). reflexivity. Qed.

Section Total.
Variable domain : nat -> nat.
Variables before after : R -> R.
Variable g : graph dist.
Variable vars : list nat.
Hypothesis Hvars : StronglySorted lt vars.
Notation fine := (fine domain g vars).
Notation good := (good domain before after g vars).

(** A layer has all units of its depth over its variables. *)
Definition complete (nodes : list id) (children : list converted) : Prop :=
  forall c u v, In c children -> In u (c_nodes c) -> In v nodes -> scope g u = scope g v -> In v (c_nodes c).

Lemma input_total t ds : t <> TSum -> t <> TProd -> Forall (fun d => dist_type d = t) ds -> Forall (leaf_fits domain) ds -> Forall dist_ok ds -> ds <> [] ->
  exists i, create_input domain before after t ds = Some i.
Proof.
  intros N1 N2 T F Ok Hne. rewrite Forall_forall in *.
  assert (Bad : t <> TTGauss /\ t <> TInt) by (destruct ds as [|d ds]; [congruence|]; specialize (T d (or_introl eq_refl)); specialize (F d (or_introl eq_refl)); destruct d; cbn in T, F; try contradiction; split; congruence).
  destruct t; try tauto; cbn [create_input].
  - destruct (mapM_total (fun d => match d with DUnif _ i => open_array before after i | _ => None end) ds) as (l & ->); [|eauto]. intros d Hd. specialize (T d Hd). specialize (Ok d Hd). destruct d; try discriminate T. destruct Ok as (a & b & Ea & Eb & _). unfold open_array. rewrite Ea, Eb. cbn. eauto.
  - destruct (mapM_total (fun d => match d with DDirac _ l c => Some (l, c) | _ => None end) ds) as (l & ->); [|eauto]. intros d Hd. specialize (T d Hd). destruct d; try discriminate T. eauto.
  - destruct (mapM_total (fun d => match d with DGauss _ m s | DTGauss _ _ m s => Some (m, s) | _ => None end) ds) as (l & ->); [|eauto]. intros d Hd. specialize (T d Hd). destruct d; try discriminate T. eauto.
  - destruct (mapM_total (fun d => match d with DSym v p => probability_row (domain v) p | _ => None end) ds) as (l & ->); [|eauto]. intros d Hd. specialize (T d Hd). specialize (F d Hd). destruct d; try discriminate T. destruct F as [[A _] B]. rewrite row_spec by assumption. eauto.
Qed.

Variable live : id -> Prop.
Hypothesis Hok : forall u d, live u -> node_kind g u = Some (ULeaf d) -> dist_ok d.
Hypothesis Hsome : forall u s, live u -> scope g u = Some s -> s <> [].

Lemma input_layer_total t nodes s : nodes <> [] -> t <> TSum -> t <> TProd -> (forall u, In u nodes -> live u /\ fine u /\ has_type g t u /\ scope g u = Some s) ->
  exists c, create_input_layer domain before after g vars t nodes = Some c.
Proof.
  intros Hne N1 N2 K. unfold create_input_layer.
  assert (L : forall u, In u nodes -> exists d, node_kind g u = Some (ULeaf d) /\ dist_type d = t /\ leaf_fits domain d /\ dist_ok d /\ In (dvar d) vars).
  { intros u Hu. destruct (K u Hu) as (Lu & Fu & (k & Hk & T) & _). destruct k as [d| |]; cbn in T; [|congruence|congruence]. exists d. split; [exact Hk|]. split; [exact T|]. pose proof Fu as (t' & U & _ & _ & F & M). inversion U as [u' d' Y|u' ts Y|u' ts Y]; subst u' t'; try congruence. assert (d' = d) by congruence. subst d'. cbn in F. split; [exact F|]. split; [now apply (Hok u)|]. apply M. destruct d; cbn; auto. }
  destruct (mapM_total (fun u => match node_kind g u with Some (ULeaf d) => Some d | _ => None end) nodes) as (ds & Ed). { intros u Hu. destruct (L u Hu) as (d & -> & _). eauto. }
  unfold dists. rewrite Ed.
  assert (All : forall d, In d ds -> dist_type d = t /\ leaf_fits domain d /\ dist_ok d /\ In (dvar d) vars). { intros d Hd. destruct (mapM_in _ _ _ _ Ed Hd) as (u & Hu & E). destruct (L u Hu) as (d' & E' & X). rewrite E' in E. inversion E; subst d'. exact X. }
  assert (Hds : ds <> []). { intros ->. destruct nodes as [|u nodes]; [congruence|]. destruct (mapM_in_l _ _ _ u Ed (or_introl eq_refl)) as (b & [] & _). }
  destruct ds as [|d ds'] eqn:Eds; [congruence|]. rewrite <- Eds in *. destruct (All d) as (_ & _ & _ & V); [rewrite Eds; now left|]. rewrite (column_index vars (dvar d) Hvars V).
  destruct (input_total t ds) as (i & ->); auto; try (apply Forall_forall; intros x Hx; now apply All). eauto.
Qed.

Lemma same_scope_total vs cs : (forall c, In c cs -> length (variables (c_layer c)) = length vs \/ length (variables (c_layer c)) = 1 \/ length vs = 1) -> exists l, same_scope vs cs = Some l.
Proof.
  induction cs as [|c cs IH]; intros H; [exists []; reflexivity|]. destruct IH as (l & E); [intros; apply H; now right|]. cbn [same_scope]. rewrite E.
  assert (exists b, same_vector (variables (c_layer c)) vs = Some b) as (b & ->); [|eauto]. unfold same_vector. destruct (Nat.eqb_spec (length (variables (c_layer c))) (length vs)) as [|Ne]; [eauto|].
  destruct (H c (or_introl eq_refl)) as [X|[X|X]]; [contradiction| |]; destruct (variables (c_layer c)) as [|x [|x' l1]], vs as [|y [|y' l2]]; cbn in *; try lia; eauto.
Qed.

Lemma sum_layer_total nodes below children s : nodes <> [] -> Forall good children -> (forall x, In x below <-> In x (concat (map c_nodes children))) -> complete below children ->
  (forall u, In u nodes -> live u /\ fine u /\ node_kind g u = Some USum /\ scope g u = Some s /\ forall e, In e (out_edges g u) -> In (e_dst e) below) ->
  (forall c, In c children -> length (variables (c_layer c)) = length s \/ length (variables (c_layer c)) = 1 \/ length s = 1) ->
  exists c, create_sum_layer g vars children nodes = Some c.
Proof.
  intros Hne G Hb Hc K Hl. unfold create_sum_layer. destruct nodes as [|u0 nodes0] eqn:En; [congruence|]. rewrite <- En in *. assert (H0 : In u0 nodes) by (rewrite En; now left).
  destruct (K u0 H0) as (L0 & F0 & K0 & S0 & C0). rewrite S0. pose proof F0 as (t & U & Sm & _). destruct (fine_scope domain g vars u0 t F0 U) as (s' & A & Ss & Is & _). assert (s' = s) by congruence. subst s'.
  rewrite (columns_index vars s Hvars Is). destruct (same_scope_total (map (column vars) s) children) as (filtered & Ef); [rewrite map_length; exact Hl|]. rewrite Ef. rewrite Forall_forall in G.
  destruct (same_scope_spec (map (column vars) s) children filtered) as [Fs _]; [now apply columns_sorted|specialize (Hsome u0 s L0 S0); destruct s; [congruence|discriminate]| |exact Ef|].
  { intros c Hcc. destruct (gd_scope _ _ _ _ _ c (G c Hcc)) as (sd & Hsd & Ssd & Isd & -> & _). split; [now apply columns_sorted|]. destruct sd; [congruence|discriminate]. }
  inversion U as [u' d Y|u' ts Y Hno F|u' ts Y F]; subst u' t; try congruence. destruct (out_edges g u0) as [|e es] eqn:Eo; [congruence|]. rewrite <- Eo in *. assert (He : In e (out_edges g u0)) by (rewrite Eo; now left).
  pose proof (sum_child_scope domain g vars u0 e s F0 K0 S0 He) as Se. pose proof (C0 e He) as Be.
  assert (Hf : exists c, In c filtered). { apply Hb in Be. apply in_concat in Be as (l & Hl' & Hd). apply in_map_iff in Hl' as (c & <- & Hcc). exists c. apply Fs. split; [exact Hcc|]. destruct (gd_scope _ _ _ _ _ c (G c Hcc)) as (sd & _ & _ & _ & -> & Q). rewrite (Q _ Hd) in Se. congruence. }
  assert (W : forall c, In c filtered -> exists w, weight_matrix g nodes c = Some w).
  { intros c Hcf. apply Fs in Hcf as [Hcc Hv]. unfold weight_matrix.
    destruct (mapM_total (sum_entries g c) (enumerate nodes)) as (ees & Ee).
    { intros [i u] Hu. apply in_enumerate_in in Hu. destruct (K u Hu) as (_ & (t' & U' & _) & Ku & _). unfold sum_entries. cbn [fst snd]. destruct (mapM_total (fun e => match e_lw e with None => None | Some w => Some (w, e_dst e) end) (out_edges g u)) as (ws & ->); [|eauto].
      inversion U' as [u' d Y'|u' ts' Y' Hno' F'|u' ts' Y' F']; subst u' t'; try congruence. intros e' He'. destruct (Forall2_in_l _ _ _ e' F' He') as (wt & _ & -> & _). eauto. }
    rewrite Ee. assert (Hin : In (e_dst e) (c_nodes c)).
    { destruct (gd_scope _ _ _ _ _ c (G c Hcc)) as (sd & _ & _ & Isd & Ed & Q). rewrite Ed in Hv. apply (columns_inj vars) in Hv; auto. subst sd. pose proof (gd_some _ _ _ _ _ c (G c Hcc)) as Nn. destruct (c_nodes c) as [|z zs] eqn:Ez; [congruence|]. rewrite <- Ez in *. assert (Hz : In z (c_nodes c)) by (rewrite Ez; now left). apply (Hc c z (e_dst e) Hcc Hz Be). rewrite Se. now apply Q. }
    destruct (var_index_spec (c_nodes c) (e_dst e) Hin) as (k & Ek & _).
    destruct (mapM_in_l _ _ _ (0, u0) Ee (in_first nodes u0 nodes0 En)) as (b & Hbb & Eb). unfold sum_entries in Eb. cbn [fst snd] in Eb. destruct (mapM _ (out_edges g u0)) as [ws|] eqn:Ew; [|discriminate].
    destruct (mapM_in_l _ _ _ e Ew He) as (w & Hw & Ewe). destruct (e_lw e) as [w'|]; [|discriminate]. assert (Hx : In (0, k, w') b). { match type of Eb with Some ?x = Some b => assert (Eb' : b = x) by congruence end. subst b. apply in_flat_map. exists w. split; [exact Hw|]. assert (w = (w', e_dst e)) by congruence. subst w. cbn [fst snd]. unfold hash_remap. rewrite Ek. now left. }
    destruct (concat ees) as [|y ys] eqn:Ec; [|eauto]. exfalso. assert (X : In (0, k, w') (concat ees)) by (apply in_concat; eauto). rewrite Ec in X. destruct X. }
  destruct (mapM_total (weight_matrix g nodes) filtered W) as (ws & ->). destruct Hf as (c & Hcf). destruct filtered; [destruct Hcf|]. eauto.
Qed.

Lemma product_layer_total nodes below children s : nodes <> [] -> Forall good children -> (forall x, In x below <-> In x (concat (map c_nodes children))) -> complete below children ->
  (forall u, In u nodes -> live u /\ fine u /\ node_kind g u = Some UProd /\ scope g u = Some s /\ forall e, In e (out_edges g u) -> In (e_dst e) below) ->
  exists c, create_product_layer g vars children nodes = Some c.
Proof.
  intros Hne G Hb Hc K. rewrite Forall_forall in G.
  assert (Sub : forall u, In u nodes -> forall x, In x (subcircuits g u) -> In x below /\ fine x /\ exists vs, scope g x = Some vs).
  { intros u Hu x Hx. destruct (K u Hu) as (_ & Fu & Ku & _ & Bu). apply in_map_iff in Hx as (e & <- & He). split; [now apply Bu|]. pose proof (fine_child domain g vars u e Fu He (or_intror Ku)) as Fe. split; [exact Fe|]. pose proof Fe as (t & U & _). destruct (fine_scope domain g vars (e_dst e) t Fe U) as (s' & A & _). eauto. }
  assert (Entry : forall i u j c, In u nodes -> In c children -> exists es, product_entries g vars (i, u) (j, c) = Some es /\ forall x k, In x (subcircuits g u) -> var_index (c_nodes c) x = Some k -> In (j, i, k) es).
  { intros i u j c Hu Hcc. unfold product_entries. cbn [fst snd]. destruct (gd_scope _ _ _ _ _ c (G c Hcc)) as (sd & Hsd & Ssd & Isd & Ed & Q). rewrite Ed, (columns_names vars sd Hvars Isd).
    assert (Es : sset_of sd = sd) by (apply sorted_lt_ext; [apply sset_of_sorted|exact Ssd|intros x; apply sset_of_In]). rewrite Es.
    destruct (mapM_total (fun s0 => match scope g s0 with Some vs => if scope_eq sd vs then match hash_remap c s0 with Some k => Some [(j, i, k)] | None => None end else Some [] | None => None end) (subcircuits g u)) as (ees & Ee).
    - intros x Hx. destruct (Sub u Hu x Hx) as (Bx & Fx & vs & Hv). rewrite Hv. destruct (scope_eq sd vs) as [<-|]; [|eauto].
      pose proof (gd_some _ _ _ _ _ c (G c Hcc)) as Nn. destruct (c_nodes c) as [|z zs] eqn:Ez; [congruence|]. rewrite <- Ez in *. assert (Hz : In z (c_nodes c)) by (rewrite Ez; now left).
      assert (Hin : In x (c_nodes c)) by (apply (Hc c z x Hcc Hz Bx); rewrite Hv; now apply Q). destruct (var_index_spec (c_nodes c) x Hin) as (k & Ek & _). unfold hash_remap. rewrite Ek. eauto.
    - rewrite Ee. eexists. split; [reflexivity|]. intros x k Hx Ek. destruct (mapM_in_l _ _ _ x Ee Hx) as (b & Hbb & Eb). apply in_concat. exists b. split; [exact Hbb|]. assert (Hin : In x (c_nodes c)) by (apply var_index_some in Ek; now apply nth_error_In in Ek). rewrite (Q x Hin) in Eb. destruct (scope_eq sd sd); [|congruence]. unfold hash_remap in Eb. rewrite Ek in Eb. inversion Eb. now left. }
  unfold create_product_layer, all_product_entries.
  destruct (mapM_total (fun iu => mapM (product_entries g vars iu) (enumerate children)) (enumerate nodes)) as (es & E).
  { intros [i u] Hu. apply in_enumerate_in in Hu. apply mapM_total. intros [j c] Hj. apply in_enumerate_in in Hj. destruct (Entry i u j c Hu Hj) as (b & -> & _). eauto. }
  rewrite E. destruct (concat (map (@concat _) es)) as [|y ys] eqn:Ec; [|eauto]. exfalso.
  destruct nodes as [|u0 nodes0] eqn:En; [congruence|]. rewrite <- En in *. assert (H0 : In u0 nodes) by (rewrite En; now left). destruct (K u0 H0) as (L0 & F0 & K0 & S0 & C0). pose proof F0 as (t & U & _). destruct (fine_scope domain g vars u0 t F0 U) as (s' & A & _ & _ & Q). assert (s' = s) by congruence. subst s'.
  specialize (Hsome u0 s L0 S0). destruct s as [|v s]; [congruence|]. assert (Mv : mentions dist_vars t v) by (apply Q; now left).
  inversion U as [u' d Y|u' ts Y Hno F|u' ts Y F]; subst u' t; try congruence. assert (exists e, In e (out_edges g u0)) as (e & He). { destruct F as [|e t es' ts' _ _]; [destruct Mv|]. exists e. now left. }
  pose proof (C0 e He) as Be. apply Hb in Be. apply in_concat in Be as (l & Hl' & Hd). apply in_map_iff in Hl' as (c & <- & Hcc). destruct (var_index_spec (c_nodes c) (e_dst e) Hd) as (k & Ek & _).
  destruct (mapM_in_l _ _ _ (0, u0) E (in_first nodes u0 nodes0 En)) as (b & Hbb & Eb). apply In_nth_error in Hcc as (j & Hj). assert (Hjc : In (j, c) (enumerate children)) by now apply in_enumerate. destruct (mapM_in_l _ _ _ (j, c) Eb Hjc) as (b' & Hb' & Eb').
  destruct (Entry 0 u0 j c H0 (nth_error_In _ _ Hj)) as (b'' & E'' & In''). assert (b'' = b') by congruence. subst b''. specialize (In'' (e_dst e) k (in_map e_dst _ _ He) Ek).
  assert (X : In (j, 0, k) (concat (map (@concat _) es))). { apply in_concat. exists (concat b). split; [now apply in_map|]. apply in_concat. eauto. } rewrite Ec in X. destruct X.
Qed.

(** *** One depth *)

Record tidy (nodes below : list id) (children : list converted) : Prop := {
  td_ready : ready domain before after g vars nodes children;
  td_below : forall x, In x below <-> In x (concat (map c_nodes children));
  td_complete : complete below children;
  td_live : forall u, In u nodes -> live u;
  td_kind : forall u, In u nodes -> exists k, node_kind g u = Some k;
  td_leaves : forall u v k k', In u nodes -> In v nodes -> node_kind g u = Some k -> node_kind g v = Some k' -> is_leaf k = is_leaf k';
  td_types : forall u v k k', In u nodes -> In v nodes -> node_kind g u = Some k -> node_kind g v = Some k' -> scope g u = scope g v -> unit_type k = unit_type k';
  td_sizes : forall u s c, In u nodes -> node_kind g u = Some USum -> scope g u = Some s -> In c children ->
    length (variables (c_layer c)) = length s \/ length (variables (c_layer c)) = 1 \/ length s = 1
}.

Lemma layer_total t nodes below children nodes' s : tidy nodes below children -> incl nodes' nodes -> nodes' <> [] -> (forall u, In u nodes' -> has_type g t u /\ scope g u = Some s) ->
  exists c, create_layer domain before after g vars t children nodes' = Some c.
Proof.
  intros T Hi Hne K. pose proof (td_ready _ _ _ T) as R'.
  assert (Fi : forall u, In u nodes' -> fine u) by (intros u Hu; apply (rd_fine _ _ _ _ _ _ _ R'); auto).
  assert (Inp : t <> TSum -> t <> TProd -> exists c, create_input_layer domain before after g vars t nodes' = Some c) by (intros; apply (input_layer_total t nodes' s); auto; intros u Hu; destruct (K u Hu); split; [apply (td_live _ _ _ T); auto|auto]).
  destruct t; cbn [create_layer]; try (apply Inp; congruence).
  - apply (sum_layer_total nodes' below children s Hne (rd_good _ _ _ _ _ _ _ R') (td_below _ _ _ T) (td_complete _ _ _ T)).
    + intros u Hu. destruct (K u Hu) as [(k & Hk & E) Hs]. split; [apply (td_live _ _ _ T); auto|]. split; [auto|]. split; [destruct k as [[]| |]; cbn in E; congruence|]. split; [exact Hs|]. intros e He. apply (td_below _ _ _ T). apply (rd_below _ _ _ _ _ _ _ R' u e); auto.
    + destruct nodes' as [|u nodes']; [congruence|]. destruct (K u (or_introl eq_refl)) as [(k & Hk & E) Hs]. intros c Hc. apply (td_sizes _ _ _ T u s c); auto; [apply Hi; now left|destruct k as [[]| |]; cbn in E; congruence].
  - apply (product_layer_total nodes' below children s Hne (rd_good _ _ _ _ _ _ _ R') (td_below _ _ _ T) (td_complete _ _ _ T)).
    intros u Hu. destruct (K u Hu) as [(k & Hk & E) Hs]. split; [apply (td_live _ _ _ T); auto|]. split; [auto|]. split; [destruct k as [[]| |]; cbn in E; congruence|]. split; [exact Hs|]. intros e He. apply (td_below _ _ _ T). apply (rd_below _ _ _ _ _ _ _ R' u e); auto.
Qed.

Lemma by_scope_total order t nodes below children nodes' : permutes order -> tidy nodes below children -> NoDup nodes -> 
  (forall u, In u nodes' <-> In u nodes /\ has_type g t u) -> NoDup nodes' ->
  exists cs, create_by_scope domain before after g vars order t children nodes' = Some cs /\ complete nodes cs.
Proof.
  intros Po T Nn Hi Nn'. pose proof (td_ready _ _ _ T) as R'. unfold create_by_scope.
  assert (Sc : forall u, In u nodes -> exists s, scope g u = Some s). { intros u Hu. pose proof (rd_fine _ _ _ _ _ _ _ R' u Hu) as Fu. pose proof Fu as (t' & U & _). destruct (fine_scope domain g vars u t' Fu U) as (s & A & _). eauto. }
  destruct (mapM_total (fun u => match scope g u with None => None | Some s => Some (u, s) end) nodes') as (us & Eus). { intros u Hu. apply Hi in Hu as [Hu _]. destruct (Sc u Hu) as (s & ->). eauto. }
  rewrite Eus. set (h := fun u => match scope g u with Some s => s | None => [] end). destruct (mapM_pair (scope g) nodes' us h Eus) as [Ew Hs]; [intros u s Q; unfold h; now rewrite Q|]. subst us. rewrite map_map. cbn [snd].
  assert (In' : forall s, In s (order (nodup scope_eq (map h nodes'))) -> exists u, In u nodes' /\ h u = s). { intros s X. apply (Permutation_in _ (Po _ (NoDup_nodup _ _))) in X. apply nodup_In in X. apply in_map_iff in X as (u & X & Y). eauto. }
  destruct (mapM_total (fun s => create_layer domain before after g vars t children (map fst (filter (fun us => if scope_eq (snd us) s then true else false) (map (fun u => (u, h u)) nodes')))) (order (nodup scope_eq (map h nodes')))) as (cs & Ecs).
  - intros s X. destruct (In' s X) as (u & Hu & Es). rewrite fst_filter_map. apply (layer_total t nodes below children _ s T).
    + intros v Hv. apply filter_In in Hv as [Hv _]. now apply Hi in Hv.
    + intros Y. assert (Z : In u (filter (fun u => if scope_eq (h u) s then true else false) nodes')) by (apply filter_In; split; [exact Hu|destruct (scope_eq (h u) s); congruence]). rewrite Y in Z. destruct Z.
    + intros v Hv. apply filter_In in Hv as [Hv Q]. split; [now apply Hi|]. rewrite (Hs v Hv). destruct (scope_eq (h v) s); congruence.
  - exists cs. split; [exact Ecs|]. intros c u v Hc Hu Hv E. destruct (mapM_in _ _ _ c Ecs Hc) as (s & Hs' & Ec). rewrite fst_filter_map in Ec.
    destruct (layer_good domain before after g vars Hvars t (filter (fun u => if scope_eq (h u) s then true else false) nodes') children c s) as [_ En].
    + apply (ready_incl _ _ _ _ _ nodes); [exact R'|]. intros w Hw. apply filter_In in Hw as [Hw _]. now apply Hi in Hw.
    + exact Ec.
    + now apply NoDup_filter.
    + intros w Hw. apply filter_In in Hw as [Hw Q]. split; [now apply Hi|]. rewrite (Hs w Hw). destruct (scope_eq (h w) s); congruence.
    + rewrite En in *. apply filter_In in Hu as [Hu Q]. assert (Hu' := proj1 (Hi u) Hu). destruct Hu' as [Hun (k & Hk & Ht)]. destruct (td_kind _ _ _ T v Hv) as (k' & Hk').
      apply filter_In. split; [|unfold h in *; rewrite <- E; exact Q]. apply Hi. split; [exact Hv|]. exists k'. split; [exact Hk'|]. rewrite <- (td_types _ _ _ T u v k k' Hun Hv Hk Hk' E). exact Ht.
Qed.

Lemma depth_total to so nodes below children : permutes to -> (forall t, permutes (so t)) -> tidy nodes below children -> NoDup nodes ->
  exists cs, create_layers domain before after g vars to so nodes children = Some cs /\ complete nodes cs.
Proof.
  intros Pt Ps T Nn. pose proof (td_ready _ _ _ T) as R'. unfold create_layers, kinds.
  destruct (mapM_total (fun u => match node_kind g u with None => None | Some k => Some (u, k) end) nodes) as (ks & Eks). { intros u Hu. destruct (td_kind _ _ _ T u Hu) as (k & ->). eauto. }
  rewrite Eks. set (h := fun u => match node_kind g u with Some k => k | None => USum end). destruct (mapM_pair (node_kind g) nodes ks h Eks) as [Ew Hk]; [intros u s Q; unfold h; now rewrite Q|].
  assert (By : forall t, In t (to (nodup utype_eq (map (fun uk => unit_type (snd uk)) ks))) -> exists cs, create_by_type domain before after g vars so children ks t = Some cs /\ complete nodes cs).
  { intros t X. apply (Permutation_in _ (Pt _ (NoDup_nodup _ _))) in X. apply nodup_In in X. rewrite Ew, map_map in X. apply in_map_iff in X as (u & Et & Hu). cbn [snd] in Et.
    assert (Own : forall v, In v (map fst (filter (fun uk => instance_of (snd uk) t) ks)) <-> In v nodes /\ has_type g t v).
    { intros v. rewrite Ew, in_map_iff. split.
      - intros ([w k] & <- & X). apply filter_In in X as [X Y]. apply in_map_iff in X as (w' & X & Hw). inversion X; subst w' k. cbn [fst snd] in *. split; [exact Hw|]. exists (h w). split; [now apply Hk|]. rewrite (fine_instance domain g vars w (h w) t (rd_fine _ _ _ _ _ _ _ R' w Hw) (Hk w Hw)) in Y. destruct (utype_eq _ _); congruence.
      - intros (Hv & k & K1 & K2). assert (k = h v) by (pose proof (Hk v Hv); congruence). subst k. exists (v, h v). split; [reflexivity|]. apply filter_In. split; [apply in_map_iff; eauto|]. cbn [snd]. rewrite (fine_instance domain g vars v (h v) t (rd_fine _ _ _ _ _ _ _ R' v Hv) (Hk v Hv)). destruct (utype_eq _ _); congruence. }
    assert (Nd : NoDup (map fst (filter (fun uk => instance_of (snd uk) t) ks))).
    { rewrite Ew. clear -Nn. induction Nn as [|a l Ha Nn IH]; [constructor|]. cbn [map filter snd]. destruct (instance_of (h a) t); [|exact IH]. cbn [map fst]. constructor; [|exact IH]. intros X. apply Ha. apply in_map_iff in X as ([b k] & <- & X). apply filter_In in X as [X _]. apply in_map_iff in X as (c & Y & Hc). inversion Y; subst. exact Hc. }
    destruct (by_scope_total (so t) t nodes below children _ (Ps t) T Nn Own Nd) as (cs & Ecs & Hcs). exists cs. split; [|exact Hcs].
    unfold create_by_type. destruct ks as [|[u0 k0] ks'] eqn:Ek; [destruct nodes; [destruct Hu|discriminate Ew]|]. rewrite <- Ek in *.
    assert (Hown : In u (map fst (filter (fun uk => instance_of (snd uk) t) ks))) by (apply Own; split; [exact Hu|]; exists (h u); auto). 
    destruct (filter (fun uk => instance_of (snd uk) t) ks) as [|[u1 k1] own] eqn:Eo; [destruct Hown|].
    assert (H0 : In u0 nodes /\ node_kind g u0 = Some k0). { assert (X : In (u0, k0) ks) by (rewrite Ek; now left). rewrite Ew in X. apply in_map_iff in X as (w & X & Hw). inversion X; subst. split; [exact Hw|now apply Hk]. }
    assert (H1 : In u1 nodes /\ node_kind g u1 = Some k1). { assert (X : In (u1, k1) (filter (fun uk => instance_of (snd uk) t) ks)) by (rewrite Eo; now left). apply filter_In in X as [X _]. rewrite Ew in X. apply in_map_iff in X as (w & X & Hw). inversion X; subst. split; [exact Hw|now apply Hk]. }
    destruct H0 as [H0 K0], H1 as [H1 K1]. assert (T1 : unit_type k1 = t). { assert (X : In u1 (map fst ((u1, k1) :: own))) by now left. apply Own in X as [_ (k & Kk & Tk)]. congruence. }
    destruct (is_leaf k0) eqn:L0; [|exact Ecs]. rewrite <- (td_leaves _ _ _ T u0 u1 k0 k1 H0 H1 K0 K1), L0, T1. exact Ecs. }
  destruct (mapM_total (create_by_type domain before after g vars so children ks) (to (nodup utype_eq (map (fun uk => unit_type (snd uk)) ks)))) as (css & E). { intros t X. destruct (By t X) as (cs & -> & _). eauto. }
  rewrite E. exists (concat css). split; [reflexivity|]. intros c u v Hc. apply in_concat in Hc as (cs & Hcs & Hc). destruct (mapM_in _ _ _ cs E Hcs) as (t & Ht & Et). destruct (By t Ht) as (cs' & Et' & Q). assert (cs' = cs) by congruence. subst cs'. now apply Q.
Qed.
End Total.

(** ** All depths *)
Section Circuit.
Variable domain : nat -> nat.
Variables before after : R -> R.
Variable g : graph dist.
Variable vars : list nat.
Hypothesis Hvars : StronglySorted lt vars.
Variable r : id.
Hypothesis Hroot : fine domain g vars r.
Hypothesis Hterm : leaves_terminal g.
Variable lv : id -> nat.
Hypothesis Hlv0 : lv r = 0.
Hypothesis Hlv : forall e, In e (g_edges g) -> reach g r (e_src e) -> lv (e_dst e) = S (lv (e_src e)).
Hypothesis Hwide : wide g r.
Hypothesis Hord : orderly g r.
Hypothesis Hok : forall u d, reach g r u -> node_kind g u = Some (ULeaf d) -> dist_ok d.

Lemma same_kind_type u v k k' t t' : node_kind g u = Some k -> node_kind g v = Some k' -> unfolds g u t -> unfolds g v t' -> same_kind t t' -> unit_type k = unit_type k'.
Proof.
  intros K K' U U' S'. destruct U as [u d X|u ts X _ _|u ts X _]; destruct U' as [v d' X'|v ts' X' _ _|v ts' X' _]; cbn in S'; try contradiction; rewrite K in X; rewrite K' in X'; inversion X; inversion X'; subst; cbn; try reflexivity. destruct d, d'; cbn in *; try contradiction; reflexivity.
Qed.

Lemma leaf_kind u k t : node_kind g u = Some k -> unfolds g u t -> is_leaf k = true <-> exists d, t = PLeaf d.
Proof.
  intros K U. destruct U as [u d X|u ts X _ _|u ts X _]; rewrite K in X; inversion X; subst; cbn; split; try discriminate; eauto; intros (d' & Y); discriminate.
Qed.

Lemma about_scope u t s n : fine domain g vars u -> unfolds g u t -> scope g u = Some s -> about t n -> n = length s.
Proof.
  intros Fu U E (l & Nl & <- & Q). destruct (fine_scope domain g vars u t Fu U) as (s' & A & Ss & _ & Q'). assert (s' = s) by congruence. subst s'. apply Permutation_length. apply NoDup_Permutation; auto.
  - clear -Ss. induction Ss as [|a l So IH F]; constructor; auto. intros X. rewrite Forall_forall in F. specialize (F a X). lia.
  - intros x. now rewrite Q, Q'.
Qed.

Lemma from_depth_total o : (forall k, permutes (type_order o k)) -> (forall k t, permutes (scope_order o k t)) ->
  forall ls depth k, levels_ok lv k ls -> (forall x, In x (concat ls) -> reach g r x) ->
  (forall x e, In x (concat ls) -> In e (out_edges g x) -> In (e_dst e) (concat ls)) -> NoDup (concat ls) ->
  exists cs, from_depth domain before after o g vars depth ls = Some cs /\ complete g (hd [] ls) cs.
Proof.
  intros Pt Ps. induction ls as [|nodes ls IH]; intros depth k Hl Hr Hc Hn; cbn [from_depth]; [exists []; split; [reflexivity|intros c u v []]|].
  cbn [levels_ok concat] in *. destruct Hl as [Hl1 Hl2]. destruct (NoDup_app_inv _ _ Hn) as (N1 & N2 & N3).
  assert (Below : forall x e, In x (nodes ++ concat ls) -> In e (out_edges g x) -> lv (e_dst e) = S (lv x)).
  { intros x e Hx He. apply out_edges_In in He as [He1 He2]. subst x. apply Hlv; auto. }
  assert (Hr' : forall x, In x (concat ls) -> reach g r x) by (intros x Hx; apply Hr; apply in_or_app; auto).
  assert (Hc' : forall x e, In x (concat ls) -> In e (out_edges g x) -> In (e_dst e) (concat ls)).
  { intros x e Hx He. assert (Hx' : In x (nodes ++ concat ls)) by (apply in_or_app; auto). pose proof (Hc x e Hx' He) as Hd. apply in_app_or in Hd as [Hd|Hd]; [|exact Hd]. pose proof (levels_ok_ge lv ls (S k) x Hl2 Hx). pose proof (Below x e Hx' He) as B. rewrite (Hl1 _ Hd) in B. lia. }
  destruct (IH (S depth) (S k) Hl2 Hr' Hc' N2) as (children & E & Comp). rewrite E. clear IH.
  destruct (from_depth_good domain before after g vars Hvars r Hroot Hterm lv Hlv0 Hlv Hwide o Pt Ps ls (S depth) (S k) children Hl2 Hr' Hc' N2 E) as [G P].
  assert (Head : forall v, In v (concat (map c_nodes children)) <-> In v (hd [] ls)) by (intros v; split; [apply (Permutation_in _ P)|apply (Permutation_in _ (Permutation_sym P))]).
  assert (Headc : forall v, In v (hd [] ls) -> In v (concat ls)) by (intros v; destruct ls; cbn; [tauto|intros; apply in_or_app; auto]).
  assert (Live : forall u, In u nodes -> reach g r u) by (intros u Hu; apply Hr; apply in_or_app; auto).
  assert (Fi : forall u, reach g r u -> fine domain g vars u) by (intros u; now apply reach_fine).
  assert (Aw : forall u, In u nodes -> away g r u k) by (intros u Hu; rewrite <- (Hl1 u Hu); apply reach_away; auto).
  assert (AwS : forall v, In v (hd [] ls) -> away g r v (S k)). { intros v Hv. assert (Lv : lv v = S k) by (destruct ls as [|l' ls']; [destruct Hv|]; cbn in Hl2; now apply Hl2). rewrite <- Lv. apply reach_away; auto. }
  assert (Un : forall u, reach g r u -> exists t k s, unfolds g u t /\ node_kind g u = Some k /\ scope g u = Some s /\ forall x, In x s <-> mentions dist_vars t x).
  { intros u Hu. pose proof (Fi u Hu) as Fu. pose proof Fu as (t & U & _). destruct (fine_scope domain g vars u t Fu U) as (s & A & _ & _ & Q). assert (exists k, node_kind g u = Some k) as (k' & K') by (clear -U; destruct U; eauto). exists t, k', s. auto. }
  apply (depth_total domain before after g vars Hvars (reach g r)) with (below := hd [] ls); auto.
  - intros u s Hu Hs. destruct (Un u Hu) as (t & k' & s' & U & _ & A & Q). assert (s' = s) by congruence. subst s'. pose proof (reach_away g r lv Hlv0 Hlv u Hu) as Au. destruct (or_vars _ _ Hord u (lv u) t Au U) as (x & Hx). apply Q in Hx. intros ->. destruct Hx.
  - constructor.
    + constructor.
      * exact G.
      * apply (Permutation_NoDup (Permutation_sym P)). destruct ls; cbn in *; [constructor|]. now destruct (NoDup_app_inv _ _ N2).
      * intros u Hu. auto.
      * intros u e Hu He. assert (Hu' : In u (nodes ++ concat ls)) by (apply in_or_app; auto). apply Head. pose proof (Hc u e Hu' He) as Hd. pose proof (Below u e Hu' He) as B. rewrite (Hl1 u Hu) in B.
        apply in_app_or in Hd as [Hd|Hd]; [rewrite (Hl1 _ Hd) in B; lia|]. now apply (levels_head r lv Hlv0 ls (S k)).
      * intros u s d v sv Hu Ku Su Hd Hv Sv x Hx. assert (Hv' : In v (hd [] ls)) by (apply Head; apply in_concat; exists (c_nodes d); split; [now apply in_map|exact Hv]).
        destruct (Un u (Live u Hu)) as (t & k1 & s1 & U & _ & A1 & Q1). destruct (Un v (Hr' v (Headc v Hv'))) as (t' & k2 & s2 & U' & _ & A2 & Q2). assert (s1 = s) by congruence. assert (s2 = sv) by congruence. subst s1 s2. apply Q1. apply (Hwide u v k t t' Ku (Aw u Hu) (AwS v Hv') U U'). now apply Q2.
    + intros x. symmetry. apply Head.
    + exact Comp.
    + exact Live.
    + intros u Hu. destruct (Un u (Live u Hu)) as (t & k' & s & _ & A & _). eauto.
    + intros u v k1 k2 Hu Hv K1 K2. destruct (Un u (Live u Hu)) as (t & _ & _ & U & _). destruct (Un v (Live v Hv)) as (t' & _ & _ & U' & _).
      pose proof (or_leaves _ _ Hord u v k t t' (Aw u Hu) (Aw v Hv) U U') as B. unfold both_leaves in B. rewrite <- (leaf_kind u k1 t K1 U), <- (leaf_kind v k2 t' K2 U') in B. destruct (is_leaf k1), (is_leaf k2); try reflexivity; [symmetry; now apply B|now apply B].
    + intros u v k1 k2 Hu Hv K1 K2 Es. destruct (Un u (Live u Hu)) as (t & _ & s & U & _ & A & Q). destruct (Un v (Live v Hv)) as (t' & _ & s' & U' & _ & A' & Q'). assert (s' = s) by congruence. subst s'. apply (same_kind_type u v k1 k2 t t'); auto. apply (or_kinds _ _ Hord u v k t t' (Aw u Hu) (Aw v Hv) U U'). intros x. now rewrite <- Q, Q'.
    + intros u s c Hu Ku Su Hcc. rewrite Forall_forall in G. pose proof (G c Hcc) as Gc. pose proof (gd_some _ _ _ _ _ c Gc) as Nc. destruct (c_nodes c) as [|v vs] eqn:Ec; [congruence|]. assert (Hv : In v (c_nodes c)) by (rewrite Ec; now left).
      assert (Hv' : In v (hd [] ls)) by (apply Head; apply in_concat; exists (c_nodes c); split; [now apply in_map|exact Hv]). destruct (gd_scope _ _ _ _ _ c Gc) as (sd & _ & _ & _ & Ed & Q). rewrite Ed, map_length.
      destruct (Un u (Live u Hu)) as (t & k1 & s1 & U & K1 & A1 & Q1). destruct (Un v (Hr' v (Headc v Hv'))) as (t' & k2 & s2 & U' & _ & A2 & Q2).
      destruct (or_sizes _ _ Hord u v k t t' (Aw u Hu) (AwS v Hv') U U') as (a & b & Ha & Hb & X). { clear -U Ku. destruct U; try congruence. eauto. }
      rewrite (about_scope u t s a (Fi u (Live u Hu)) U Su Ha) in X. rewrite (about_scope v t' sd b (Fi v (Hr' v (Headc v Hv'))) U' (Q v Hv) Hb) in X. destruct X as [X|[X|X]]; auto.
Qed.
End Circuit.
