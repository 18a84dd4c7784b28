(** * BayesCircuit: the circuit of a Bayesian network, node by node *)
From Coq Require Import List Arith Bool Lia ZArith Reals Lra Permutation.
From Verif Require Import Num Graph GraphFacts Spec SpecFacts Circuit EvalFacts VarFacts Interval Dist DistFacts TreeProb Simplify SimplifyFacts TreeLocal NormalizeFacts
  Conditional ConditionalFacts Restrict Copy Heap SupportFacts ModeFacts PropertiesDist PropertiesQuery PropertiesProb PropertiesSupport
  PropertiesMarginal Multinomial MultinomialFacts Layout LayoutFacts Mixture MixtureFacts PropertiesMixture
  Interaction InteractionFacts Mounting MountTree PropertiesInteraction Bayes BayesFacts PropertiesForward BayesNet.
Import ListNotations.
Local Set Bullet Behavior "Strict Subproofs".
Local Open Scope R_scope.

Definition at_real (x : nat -> Z) : nat -> R := fun v => IZR (x v).

Section Inv.
Context {Y : Type} {emb : Y -> nat -> R}.

(** A circuit with one component per state; [q i] is the weight of component [i] and [F x i] its density at the point [emb x]. *)
Record node_inv_at (q : nat -> R) (n : nat) (g : graph dist) (r : id) (lo hi : nat) (ts : list (num * pc dist)) (V : list nat) (F : Y -> nat -> R) : Prop := {
  ni_layered : layered_circuit g (PSum ts);
  ni_root : root g = Some r;
  ni_ids : forall u, In u (node_ids g) -> (lo <= u < hi)%nat;
  ni_le : (lo <= hi)%nat;
  ni_len : length ts = n;
  ni_smooth : smooth dist_vars (PSum ts);
  ni_dec : decomposable dist_vars (PSum ts);
  ni_leaves : all_leaves dist_ok (PSum ts);
  ni_sums : all_sums (Forall lw_ok) (PSum ts);
  ni_vars : forall w, mentions dist_vars (PSum ts) w <-> In w V;
  ni_weights : forall i w t, nth_error ts i = Some (w, t) -> w = nlog (Fin (q i));
  ni_values : forall x, values_of (fun t => lik t (emb x)) (map snd ts) (F x)
}.
End Inv.
Notation node_inv := (@node_inv_at (nat -> Z) at_real).

Definition leaf_at (nx : nat) (d : dist) : graph dist := mkGraph [(nx, ULeaf d)] [].

Lemma leaf_at_layered nx d : layered_circuit (leaf_at nx d) (PLeaf d).
Proof.
  split; [|split].
  - constructor; cbn; try (intros e []); repeat constructor; cbn; tauto.
  - intros e d' [].
  - exists nx. split; [unfold leaf_at, root; cbn; reflexivity|]. split; [exists (fun _ => 0%nat); split; [reflexivity|intros e []]|]. constructor. unfold node_kind. cbn. now rewrite Nat.eqb_refl.
Qed.

Lemma keys_nth m n i kq : keys m = zrange n -> nth_error m i = Some kq -> fst kq = Z.of_nat i /\ (i < n)%nat.
Proof.
  intros K E. assert (X : nth_error (keys m) i = Some (fst kq)) by (unfold keys; now rewrite nth_error_map, E). rewrite K in X. unfold zrange in X.
  rewrite nth_error_map in X. destruct (nth_error (seq 0 n) i) as [j|] eqn:Ej; [|discriminate]. cbn in X. 
  assert (i < n)%nat by (rewrite <- (seq_length n 0); apply nth_error_Some; congruence).
  rewrite (nth_error_nth' _ 0%nat) in Ej by (now rewrite seq_length). rewrite seq_nth in Ej by auto. injection Ej as <-. injection X as <-. auto.
Qed.

Lemma any_message_circuit_at {Y : Type} {emb : Y -> nat -> R} v m n nx : dict_ok m -> Rsum (vals m) = 1 -> length m = n -> exists g ts, message_circuit v m nx = Some (g, S nx, nx + 2 + n)%nat /\
  @node_inv_at Y emb (fun i => nth i (vals m) 0) n g (S nx) nx (nx + 2 + n) ts [v] (fun x i => ind (Reqb (emb x v) (IZR (nth i (keys m) 0%Z)))).
Proof.
  intros Ho Hs Lm. set (d := DSym v m).
  assert (Hd : dist_ok d) by (split; assumption). assert (L := leaf_at_layered nx d).
  assert (Kd : node_kind (leaf_at nx d) nx = Some (ULeaf d)) by (unfold node_kind; cbn; now rewrite Nat.eqb_refl).
  assert (Hlt : forall x, In x (node_ids (leaf_at nx d)) -> (x < S nx)%nat) by (intros x [<-|[]]; cbn; lia).
  destruct (replaced_circuit (leaf_at nx d) (PLeaf d) nx d m (S nx) L Kd eq_refl Hd Hlt) as (g & t' & E & Lg & (S1 & S2 & S3 & S4 & S5 & S6) & _ & Rg & U).
  assert (Rg' : root g = Some (S nx)) by (apply Rg; destruct L as (_ & _ & r & Hr & _ & Hu); inversion Hu as [? ? Kr| |]; subst; apply node_kind_ids in Kr; destruct Kr as [<-|[]]; exact Hr).
  set (ts := map (fun kq => (nlog (Fin (snd kq)), PLeaf (at_element d (fst kq)))) m) in *.
  assert (Et : t' = PSum ts) by (destruct Lg as (_ & _ & r & Hr & _ & Hu); assert (r = S nx) as -> by congruence; eapply unfolds_det; eauto). subst t'.
  exists g, ts. split; [unfold message_circuit; match goal with |- context [as_deterministic_sum ?a ?b ?c] => replace (as_deterministic_sum a b c) with (Some (g, S nx)) by (symmetry; exact E) end; now rewrite Lm|].
  assert (Lp : length (point_parts d m) = n) by (unfold point_parts; now rewrite map_length).
  constructor; auto.
  - intros u Hu. destruct (replace_op (leaf_at nx d) nx d (S nx) (point_parts d m) (proj1 L) (proj1 (proj2 L)) Kd Hlt) as (ns & es & Eg & N1 & _).
    unfold as_deterministic_sum in E. rewrite Kd in E. cbn [probabilities] in E. fold (point_parts d m) in E. 
    assert (g = replaced (leaf_at nx d) nx (S nx) ns es) as ->.
    { change (probabilities d) with (Some m) in E. cbn match in E. fold (point_parts d m) in E.
      destruct (fold_left (add_part (S nx)) (point_parts d m) (add_node (leaf_at nx d) (S nx) USum, empty_store, S (S nx))) as [[g1 s1] n1]. rewrite Eg in E. congruence. }
    apply (rp_ids (leaf_at nx d) nx (S nx) _ ns es N1) in Hu. rewrite Lp in Hu. destruct Hu as [[[Hu|[]] Hu']|Hu]; [cbn in Hu; congruence|lia].
  - lia.
  - unfold ts. now rewrite map_length.
  - apply S4. exact I.
  - unfold ts. cbn [decomposable]. rewrite map_map. cbn [snd decomposable]. apply fold_and_Forall, Forall_forall. intros kq _. exact I.
  - apply S6. exact I.
  - intros i w t Hi. unfold ts in Hi. rewrite nth_error_map in Hi. destruct (nth_error m i) as [kq|] eqn:Ei; [|discriminate]. cbn [option_map] in Hi. assert (w = nlog (Fin (snd kq))) by congruence. subst w.
    do 2 f_equal. symmetry. apply nth_error_nth. unfold vals. now rewrite nth_error_map, Ei.
  - intros x i t Hi. unfold ts in Hi. rewrite map_map in Hi. cbn [snd] in Hi. rewrite nth_error_map in Hi. destruct (nth_error m i) as [kq|] eqn:Ei; [|discriminate]. injection Hi as <-.
    assert (Ek : nth i (keys m) 0%Z = fst kq) by (apply nth_error_nth; unfold keys; now rewrite nth_error_map, Ei).
    unfold lik. cbn [semN]. unfold d. cbn [at_element dvar]. rewrite sym_point, Ek. reflexivity.
Qed.

Lemma node_inv_ext {Y : Type} {emb : Y -> nat -> R} q q' n g r lo hi ts V V' F F' : @node_inv_at Y emb q n g r lo hi ts V F -> (forall i, (i < n)%nat -> q i = q' i) -> (forall w, In w V <-> In w V') ->
  (forall x i, (i < n)%nat -> F x i = F' x i) -> @node_inv_at Y emb q' n g r lo hi ts V' F'.
Proof.
  intros [Lg Rg Ig Hle Hlen Sg Dg Og Wg Vg Kg Fg] Hq HV HF. constructor; auto.
  - intros w. rewrite Vg. apply HV.
  - intros i w t Hi. rewrite <- Hq; [eapply Kg; eauto|]. rewrite <- Hlen. apply nth_error_Some. congruence.
  - intros x i t Hi. rewrite <- HF; [now apply Fg|]. rewrite <- Hlen, <- (map_length snd). apply nth_error_Some. congruence.
Qed.

Lemma Reqb_IZR a b : Reqb (IZR a) (IZR b) = Z.eqb a b.
Proof. destruct (Reqb_spec (IZR a) (IZR b)) as [Q|Q], (Z.eqb_spec a b) as [Q'|Q']; auto; [apply eq_IZR in Q; contradiction|rewrite Q' in Q; contradiction]. Qed.

Lemma any_message_circuit v m n nx : dict_ok m -> Rsum (vals m) = 1 -> length m = n -> exists g ts, message_circuit v m nx = Some (g, S nx, nx + 2 + n)%nat /\
  node_inv (fun i => nth i (vals m) 0) n g (S nx) nx (nx + 2 + n) ts [v] (fun x i => ind (Z.eqb (x v) (nth i (keys m) 0%Z))).
Proof.
  intros Ho Hs Lm. destruct (any_message_circuit_at (emb := at_real) v m n nx Ho Hs Lm) as (g & ts & E & Inv). exists g, ts. split; [exact E|].
  eapply node_inv_ext; [exact Inv|auto|tauto|]. intros x i _. cbn beta. unfold at_real. now rewrite Reqb_IZR.
Qed.

Lemma message_circuit_at {Y : Type} {emb : Y -> nat -> R} v m n nx : msg_full n m -> exists g ts, message_circuit v m nx = Some (g, S nx, nx + 2 + n)%nat /\
  @node_inv_at Y emb (fun i => dget m (Z.of_nat i)) n g (S nx) nx (nx + 2 + n) ts [v] (fun x i => ind (Reqb (emb x v) (IZR (Z.of_nat i)))).
Proof.
  intros (Hn & Ho & K & Hs & Hpos).
  assert (Lm : length m = n) by (rewrite <- (map_length fst); change (map fst m) with (keys m); rewrite K; apply zrange_length).
  assert (X : forall i, (i < n)%nat -> nth i (keys m) 0%Z = Z.of_nat i /\ nth i (vals m) 0 = dget m (Z.of_nat i)).
  { intros i Hi. destruct (nth_error m i) as [kq|] eqn:Ei; [|apply nth_error_None in Ei; lia]. destruct (keys_nth m n i kq K Ei) as [Ek _].
    assert (E1 : nth i (keys m) 0%Z = fst kq) by (apply nth_error_nth; unfold keys; now rewrite nth_error_map, Ei).
    assert (E2 : nth i (vals m) 0 = snd kq) by (apply nth_error_nth; unfold vals; now rewrite nth_error_map, Ei).
    rewrite E1, E2, <- Ek. split; [reflexivity|]. symmetry. apply dget_In; [apply Ho|]. destruct kq. eapply nth_error_In; eauto. }
  destruct (any_message_circuit_at (emb := emb) v m n nx Ho Hs Lm) as (g & ts & E & Inv). exists g, ts. split; [exact E|].
  eapply node_inv_ext; [exact Inv| | |].
  - intros i Hi. now apply X.
  - tauto.
  - intros x i Hi. cbn beta. now rewrite (proj1 (X i Hi)).
Qed.

Lemma message_circuit_spec v m n nx : msg_full n m -> exists g ts, message_circuit v m nx = Some (g, S nx, nx + 2 + n)%nat /\
  node_inv (fun i => dget m (Z.of_nat i)) n g (S nx) nx (nx + 2 + n) ts [v] (fun x i => ind (Z.eqb (x v) (Z.of_nat i))).
Proof.
  intros Hm. destruct (message_circuit_at (emb := at_real) v m n nx Hm) as (g & ts & E & Inv). exists g, ts. split; [exact E|].
  eapply node_inv_ext; [exact Inv|auto|tauto|]. intros x i _. cbn beta. unfold at_real. now rewrite Reqb_IZR.
Qed.

(** ** Mounting one child *)
Lemma subcircuits_length (h : graph dist) o us : layered_circuit h (PSum us) -> root h = Some o -> length (subcircuits h o) = length us.
Proof.
  intros (_ & _ & r & Hr & _ & Hu) Ho. assert (r = o) as -> by congruence. inversion Hu as [|? ? _ _ F|]; subst. unfold subcircuits. rewrite map_length. now apply Forall2_length_eq in F.
Qed.

Lemma enumerate_at {A} (l : list A) : forall n i a, nth_error l i = Some a -> nth_error (enumerate n l) i = Some (n + i, a)%nat.
Proof.
  induction l as [|x l IH]; intros n [|i] a H; cbn in *; try discriminate.
  - injection H as ->. now rewrite Nat.add_0_r.
  - rewrite (IH (S n) i a H). f_equal. f_equal. lia.
Qed.

Lemma Forall2_nth_r {A B} (P : A -> B -> Prop) l l' : Forall2 P l l' -> forall i b, nth_error l' i = Some b -> exists a, nth_error l i = Some a /\ P a b.
Proof.
  induction 1 as [|a b l l' H F IH]; intros [|i] y E; cbn in *; try discriminate; [injection E as <-; eauto|]. now apply IH.
Qed.

Lemma mount_child_spec {Y : Type} {emb : Y -> nat -> R} np pm n q0 q v cpd cs g h r o lo mid hi ts us V W F G :
  msg_full np pm -> cpt_ok (zrange np) (CPT v (zrange n) cpd cs) ->
  @node_inv_at Y emb q0 np g r lo mid ts V F -> @node_inv_at Y emb q n h o mid hi us W G -> (forall w, In w V -> ~ In w W) ->
  exists g' ts', mount_child (zrange np) pm r g (zrange n) cpd h o hi = Some (g', hi + 2 * np)%nat /\
    @node_inv_at Y emb (fun i => dget pm (Z.of_nat i)) np g' r lo (hi + 2 * np) ts' (V ++ W) (fun x i => F x i * Rsum (map (fun j => tab cpd (Z.of_nat i) (Z.of_nat j) * G x j) (seq 0 n))).
Proof.
  intros HM Hok [Lg Rg Ig Hle Hlen Sg Dg Og Wg Vg Kg Fg] [Lh Rh Ih Hle' Hlen' Sh Dh Oh Wh Vh Kh Fh] Hdis.
  assert (HM' := HM). destruct HM' as (Hnp & Hm & Km & Sm & Pm).
  set (c := fun i => dget pm (Z.of_nat i)). set (M := fun i j => dget pm (Z.of_nat i) * tab cpd (Z.of_nat i) (Z.of_nat j)).
  assert (Hc : forall i, (i < length ts)%nat -> 0 < c i) by (intros i Hi; apply Pm, zrange_In; exists i; rewrite Hlen in Hi; auto).
  assert (InP : forall i, (i < length ts)%nat -> In (Z.of_nat i) (zrange np)) by (intros i Hi; apply zrange_In; exists i; rewrite Hlen in Hi; auto).
  assert (T1 : forall i, (i < length ts)%nat -> tmass cpd (Z.of_nat i) (zrange n) = 1).
  { intros i Hi. destruct (cpt_row _ _ _ _ _ _ Hok (InP i Hi)) as (row & Er & Hr). rewrite (tmass_row cpd _ row) by auto. apply distribution_mass; [apply zrange_NoDup|exact Hr]. }
  assert (T0 : forall i j, (i < length ts)%nat -> 0 <= tab cpd (Z.of_nat i) (Z.of_nat j)).
  { intros i j Hi. destruct (cpt_row _ _ _ _ _ _ Hok (InP i Hi)) as (row & Er & Hr & _). rewrite (tab_row cpd _ row) by auto. now apply dget_nonneg. }
  assert (Tab : table (length ts) (length us) c M).
  { split.
    - intros i j Hi Hj. apply Rmult_le_pos; [left; now apply Hc|now apply T0].
    - intros i Hi. unfold M. rewrite Rsum_scal, Hlen', <- (zrange_sum n (tab cpd (Z.of_nat i))). fold (tmass cpd (Z.of_nat i) (zrange n)). rewrite T1 by auto. unfold c. ring. }
  set (t := sop (terms pm cpd)).
  set (pcond := fun i => ask t (own_is (length (subcircuits h o)) i)). set (pquery := fun i j => ask t (both_are i j)).
  assert (Hcond : forall i, (i < length ts)%nat -> pcond i = Some (Fin (c i)) /\ 0 < c i).
  { intros i Hi. split; [|now apply Hc]. unfold pcond, t. rewrite (subcircuits_length h o us Lh Rh), Hlen'.
    rewrite (ask_terms np pm v n cpd cs (own_is n i) (Z.of_nat i) (zrange n) HM Hok eq_refl eq_refl (InP i Hi) (zrange_NoDup n)). rewrite T1 by auto. unfold c. now rewrite Rmult_1_r. }
  assert (Hquery : forall i j, (i < length ts)%nat -> (j < length us)%nat -> pquery i j = Some (Fin (M i j)) /\ 0 <= M i j).
  { intros i j Hi Hj. split; [|now apply Tab]. unfold pquery, t.
    rewrite (ask_terms np pm v n cpd cs (both_are i j) (Z.of_nat i) [Z.of_nat j] HM Hok eq_refl eq_refl (InP i Hi)); [|repeat constructor; cbn; tauto].
    unfold M, tmass. cbn [map]. unfold Rsum. cbn [fold_right]. now rewrite Rplus_0_r. }
  destruct (mount_interaction_tree dist_vars c M pcond pquery g h r o hi ts us Lg Lh Rg Rh) as (g' & t' & E & LG & RG & Mix & Ids); auto.
  { intros u Hu Hu'. apply Ig in Hu. apply Ih in Hu'. lia. }
  { intros u [Hu|Hu]; [apply Ig in Hu|apply Ih in Hu]; lia. }
  { intros w Hw Hw'. apply Vg in Hw. apply Vh in Hw'. exact (Hdis w Hw Hw'). }
  { intros i Hi. now apply Tab. }
  assert (Pos' : forall i, (i < length (map snd ts))%nat -> 0 < c i) by (intros i; rewrite map_length; apply Hc).
  assert (Tab' : table (length (map snd ts)) (length (map snd us)) c M) by (rewrite !map_length; exact Tab).
  assert (Tne : map snd ts <> []) by (intros X; apply (f_equal (@length _)) in X; rewrite map_length, Hlen in X; cbn in X; lia).
  destruct (mixed_scope dist_vars c M _ _ Pos' Tab' _ _ (smooth_children dist_vars ts Sg) (smooth_children dist_vars us Sh) t' Tne Mix) as [St Mt].
  destruct Wg as [_ Wg]. destruct Wh as [_ Wh]. cbn [all_leaves decomposable] in Og, Oh, Dg, Dh. apply children_all in Wg, Wh, Og, Oh, Dg, Dh.
  assert (Mix' := Mix). destruct Mix' as (l & -> & F2).
  assert (Ll : length l = length ts) by (apply Forall2_length_eq in F2; rewrite <- F2, <- (map_length fst), (proj2 (enumerate_spec _ 0)), seq_length, map_length; reflexivity).
  exists g', l. split; [unfold mount_child; rewrite (interaction_terms np pm v n cpd cs HM Hok); fold t; rewrite <- Hlen; exact E|].
  constructor; auto; try lia.
  - intros u Hu. destruct (Ids u Hu) as [X|[X|X]]; [apply Ig in X|apply Ih in X|rewrite Hlen in X]; lia.
  - apply (mixed_decomposable dist_vars c M _ _ Pos' Tab' _ _ (smooth_children dist_vars ts Sg) (smooth_children dist_vars us Sh) (PSum l)); auto.
    intros w Hw Hw'. apply Vg in Hw. apply Vh in Hw'. exact (Hdis w Hw Hw').
  - apply (mixed_leaves c M _ _ Pos' Tab' dist_ok (PSum l) Og Oh Mix).
  - apply (mixed_sums c M _ _ Pos' Tab' (PSum l) Wg Wh Mix).
  - intros w. rewrite Mt, in_app_iff, Vg, Vh. tauto.
  - intros i w y Hy. destruct (Forall2_nth_r _ _ _ F2 i _ Hy) as ((i' & ti) & Hi & Ew & _). cbn [fst snd] in *.
    assert (Hi' : exists a, nth_error (map snd ts) i = Some a).
    { destruct (nth_error (map snd ts) i) as [a|] eqn:X; [eauto|]. apply nth_error_None in X. assert (i < length l)%nat by (apply nth_error_Some; congruence). rewrite map_length in X. lia. }
    destruct Hi' as (a & Ha). rewrite (enumerate_at _ 0 i a Ha) in Hi. injection Hi as <- <-. exact Ew.
  - intros x i y Hy. rewrite nth_error_map in Hy. destruct (nth_error l i) as [[w p]|] eqn:El; [|discriminate]. injection Hy as <-. cbn [snd].
    destruct (Forall2_nth_r _ _ _ F2 i _ El) as ((i' & ti) & Hi & _ & u & Ep & Hq). cbn [fst snd] in *.
    assert (Hi' : exists a, nth_error (map snd ts) i = Some a).
    { destruct (nth_error (map snd ts) i) as [a|] eqn:X; [eauto|]. apply nth_error_None in X. assert (i < length l)%nat by (apply nth_error_Some; congruence). rewrite map_length in X. lia. }
    destruct Hi' as (a & Ha). rewrite (enumerate_at _ 0 i a Ha) in Hi. injection Hi as <- <-. subst p.
    assert (Hlt : (i < length (map snd ts))%nat) by (apply nth_error_Some; congruence).
    unfold lik. cbn [semN map]. unfold nprod. cbn [fold_right]. assert (Va := Fg x i a Ha). unfold lik in Va. rewrite Va.
    rewrite (proxy_value c M (map snd ts) (map snd us) _ (G x) i u Hlt (Fh x) Hq). cbn [nmul]. f_equal. rewrite Rmult_1_r, map_length, Hlen'. f_equal.
    apply Rsum_ext. intros j _. unfold M, c. assert (0 < dget pm (Z.of_nat i)) by (apply Pos'; exact Hlt). field. lra.
Qed.

(** ** The value of the circuit *)
Lemma node_value {Y : Type} {emb : Y -> nat -> R} q n g r lo hi ts V F : @node_inv_at Y emb q n g r lo hi ts V F -> (forall i, (i < n)%nat -> 0 <= q i) -> forall x,
  likelihood_at g (emb x) (Fin (Rsum (map (fun i => q i * F x i) (seq 0 n)))).
Proof.
  intros [Lg Rg Ig Hle Hlen Sg Dg Og Wg Vg Kg Fg] Hq x.
  assert (Hl : lik (PSum ts) (emb x) = Fin (Rsum (map (fun i => q i * F x i) (seq 0 n)))); [|rewrite <- Hl; now apply likelihood_at_lik].
  assert (F3 : Forall2 (fun (i : nat) (wt : num * pc dist) => nth_error ts i = Some wt) (seq 0 n) ts).
  { rewrite <- Hlen. assert (G : forall (l : list (num * pc dist)) k, (forall i wt, nth_error l i = Some wt -> nth_error ts (k + i)%nat = Some wt) -> Forall2 (fun (i : nat) wt => nth_error ts i = Some wt) (seq k (length l)) l).
    { clear. induction l as [|a l IH]; intros k H; cbn [length seq]; constructor; [specialize (H 0%nat a eq_refl); now rewrite Nat.add_0_r in H|]. apply IH. intros i wt Hi. specialize (H (S i) wt Hi). now rewrite Nat.add_succ_comm. }
    apply G. auto. }
  unfold lik. cbn [semN]. apply (nsum_Forall2 _ _ (fun i => q i * F x i) _ _ F3).
  intros i [w t] Hi Hn'. apply in_seq in Hi. cbn [fst snd]. rewrite (Kg i w t Hn'). rewrite nexp_nlog by (cbn; apply Hq; lia).
  assert (Ft := Fg x i t). unfold lik in Ft. rewrite Ft; [reflexivity|]. now rewrite nth_error_map, Hn'.
Qed.
