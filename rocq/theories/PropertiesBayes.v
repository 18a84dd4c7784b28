(** * Property C38: the circuit of a Bayesian network *)
From Coq Require Import List Arith Bool Lia ZArith Reals Lra Permutation.
From Verif Require Import Num Graph GraphFacts Spec SpecFacts Circuit EvalFacts VarFacts Interval Dist DistFacts TreeProb TreeLocal
  Conditional SupportFacts ModeFacts PropertiesDist PropertiesQuery PropertiesProb PropertiesSupport
  Multinomial MultinomialFacts Mixture Interaction MountTree PropertiesInteraction Bayes BayesFacts PropertiesForward BayesNet BayesCircuit.
Import ListNotations.
Local Set Bullet Behavior "Strict Subproofs".
Local Open Scope R_scope.

(** ** The specification: the product of the root probability and one table entry per node *)
Fixpoint below (x : nat -> Z) (t : cpt) (s : Z) : R :=
  match t with CPT v _ cpd cs => tab cpd s (x v) * Rprod (map (fun c => below x c (x v)) cs) end.
Definition joint (b : network) (x : nat -> Z) : R := dget (n_probs b) (x (n_var b)) * Rprod (map (fun c => below x c (x (n_var b))) (n_children b)).

(** [x] assigns every variable a state of its domain. *)
Fixpoint cpt_states (x : nat -> Z) (t : cpt) : Prop := match t with CPT v dom _ cs => In (x v) dom /\ fold_right and True (map (cpt_states x) cs) end.
Definition network_states (x : nat -> Z) (b : network) : Prop := In (x (n_var b)) (n_dom b) /\ Forall (cpt_states x) (n_children b).

Definition C38_full : Prop := forall b, network_ok b ->
  exists g, as_probabilistic_circuit b = Some g /\ forall x, network_states x b -> likelihood_at g (at_real x) (Fin (joint b x)).

(** The states of every variable are 0, 1, ..., and every state is possible whatever the ancestors with state 0 are: the root
    and the first row of every table are positive. *)
Fixpoint readable (t : cpt) : Prop :=
  match t with CPT v dom cpd cs => dom = zrange (length dom) /\ (forall k, In k dom -> 0 < tab cpd 0 k) /\ fold_right and True (map readable cs) end.
Definition network_readable (b : network) : Prop :=
  n_dom b = zrange (length (n_dom b)) /\ (forall k, In k (n_dom b) -> 0 < dget (n_probs b) k) /\ Forall readable (n_children b).

(** ** The event without evidence *)
Fixpoint full_for (e : nat -> list Z) (t : cpt) : Prop := match t with CPT v dom _ cs => e v = dom /\ fold_right and True (map (full_for e) cs) end.

Lemma full_for_ext e e' t : (forall v, In v (cpt_vars t) -> e v = e' v) -> full_for e t -> full_for e' t.
Proof.
  induction t as [v dom cpd cs IH] using cpt_ind'. intros H [E Hc]. split; [rewrite <- E; symmetry; apply H; now left|].
  apply fold_and_Forall. apply fold_and_Forall in Hc. rewrite Forall_forall in *. intros c Hin. apply (IH c Hin); auto.
  intros w Hw. apply H. right. apply in_flat_map. eauto.
Qed.

Lemma fold_events_outside cs : Forall (fun t => forall e u, ~ In u (cpt_vars t) -> cpt_events e t u = e u) cs ->
  forall e u, ~ In u (flat_map cpt_vars cs) -> fold_left cpt_events cs e u = e u.
Proof.
  induction 1 as [|c cs Hc _ IH]; intros e u Hu; [reflexivity|]. cbn [fold_left flat_map] in *. rewrite in_app_iff in Hu. rewrite IH by tauto. apply Hc. tauto.
Qed.

Lemma events_outside t : forall e u, ~ In u (cpt_vars t) -> cpt_events e t u = e u.
Proof.
  induction t as [v dom cpd cs IH] using cpt_ind'. intros e u Hu. cbn [cpt_events cpt_vars] in *. rewrite fold_events_outside; [|exact IH|intros X; apply Hu; now right].
  destruct (Nat.eqb_spec u v) as [->|]; [exfalso; apply Hu; now left|reflexivity].
Qed.

Lemma NoDup_app_parts {A} (l l' : list A) : NoDup (l ++ l') -> NoDup l /\ NoDup l' /\ forall a, In a l -> ~ In a l'.
Proof.
  induction l as [|a l IH]; cbn [app]; intros H; [split; [constructor|split; [exact H|intros x []]]|]. inversion H as [|? ? N H']; subst. destruct (IH H') as (A1 & A2 & A3).
  rewrite in_app_iff in N. split; [constructor; tauto|]. split; [exact A2|]. intros x [<-|Hx]; [tauto|now apply A3].
Qed.

Lemma fold_events_full cs : Forall (fun t => forall e, NoDup (cpt_vars t) -> full_for (cpt_events e t) t) cs ->
  forall e, NoDup (flat_map cpt_vars cs) -> Forall (full_for (fold_left cpt_events cs e)) cs.
Proof.
  induction 1 as [|c cs Hc _ IH]; intros e N; [constructor|]. cbn [fold_left flat_map] in *. apply NoDup_app_parts in N. destruct N as (N1 & N2 & N3).
  constructor; [|now apply IH]. eapply full_for_ext; [|apply (Hc e N1)]. intros v Hv. symmetry. apply fold_events_outside; [apply Forall_forall; intros; now apply events_outside|]. now apply N3.
Qed.

Lemma events_full t : forall e, NoDup (cpt_vars t) -> full_for (cpt_events e t) t.
Proof.
  induction t as [v dom cpd cs IH] using cpt_ind'. intros e N. cbn [cpt_vars] in N. inversion N as [|? ? Nv N']; subst. cbn [cpt_events full_for]. split.
  - rewrite fold_events_outside; [now rewrite Nat.eqb_refl|apply Forall_forall; intros; now apply events_outside|exact Nv].
  - apply fold_and_Forall. now apply fold_events_full.
Qed.

Lemma full_event_spec b : NoDup (n_var b :: flat_map cpt_vars (n_children b)) -> full_event b (n_var b) = n_dom b /\ Forall (full_for (full_event b)) (n_children b).
Proof.
  intros N. inversion N as [|? ? Nv N']; subst. unfold full_event. split.
  - rewrite fold_events_outside; [now rewrite Nat.eqb_refl|apply Forall_forall; intros; now apply events_outside|exact Nv].
  - apply fold_events_full; [apply Forall_forall; intros; now apply events_full|exact N'].
Qed.

(** ** The circuit of a node *)
Definition density (v : nat) (cs : list cpt) (x : nat -> Z) (i : nat) : R := ind (Z.eqb (x v) (Z.of_nat i)) * Rprod (map (fun c => below x c (Z.of_nat i)) cs).

(** The child [c] of a node with [np] states and its result [f] of the forward pass can be turned into a circuit. *)
Definition good (np : nat) (c : cpt) (f : fnode) : Prop :=
  cpt_ok (zrange np) c /\
  match c, f with
  | CPT v dom cpd cs, FNode _ dom' cpd' _ _ _ =>
      dom' = dom /\ cpd' = cpd /\ dom = zrange (length dom) /\
      forall nx, exists g r hi q ts, node_circuit f nx = Some (g, r, hi) /\ node_inv q (length dom) g r nx hi ts (cpt_vars c) (density v cs)
  end.

Lemma Rsum_pick n (f : nat -> R) z : Rsum (map (fun j => f j * ind (Z.eqb z (Z.of_nat j))) (seq 0 n)) = if (0 <=? z)%Z && (z <? Z.of_nat n)%Z then f (Z.to_nat z) else 0.
Proof.
  destruct (Z.leb_spec 0 z); [destruct (Z.ltb_spec z (Z.of_nat n))|]; cbn [andb].
  - rewrite (Rsum_one _ (seq 0 n) (Z.to_nat z)).
    + rewrite Z2Nat.id, Z.eqb_refl by auto. unfold ind. ring.
    + apply seq_NoDup.
    + apply in_seq. lia.
    + intros j _ Nj. destruct (Z.eqb_spec z (Z.of_nat j)); [subst z; rewrite Nat2Z.id in Nj; contradiction|]. unfold ind. ring.
  - apply Rsum_zero. intros j Hj. apply in_seq in Hj. destruct (Z.eqb_spec z (Z.of_nat j)); [lia|]. unfold ind. ring.
  - apply Rsum_zero. intros j Hj. destruct (Z.eqb_spec z (Z.of_nat j)); [lia|]. unfold ind. ring.
Qed.

(** Outside of the domain a table is zero. *)
Lemma tab_outside np v n cpd cs s k : cpt_ok (zrange np) (CPT v (zrange n) cpd cs) -> In s (zrange np) -> ~ In k (zrange n) -> tab cpd s k = 0.
Proof.
  intros Hok Hs Hk. destruct (cpt_row _ _ _ _ _ s Hok Hs) as (row & Er & _ & Hi & _). rewrite (tab_row cpd s row) by auto. apply dget_absent. intros X. apply Hk. now apply Hi.
Qed.

Lemma child_sum np v n cpd cs x i : cpt_ok (zrange np) (CPT v (zrange n) cpd cs) -> (i < np)%nat ->
  Rsum (map (fun j => tab cpd (Z.of_nat i) (Z.of_nat j) * density v cs x j) (seq 0 n)) = below x (CPT v (zrange n) cpd cs) (Z.of_nat i).
Proof.
  intros Hok Hi. cbn [below]. unfold density.
  rewrite (Rsum_ext _ (fun j => (tab cpd (Z.of_nat i) (Z.of_nat j) * Rprod (map (fun c => below x c (Z.of_nat j)) cs)) * ind (Z.eqb (x v) (Z.of_nat j)))) by (intros; ring).
  rewrite (Rsum_pick n (fun j => tab cpd (Z.of_nat i) (Z.of_nat j) * Rprod (map (fun c => below x c (Z.of_nat j)) cs)) (x v)).
  destruct (Z.leb_spec 0 (x v)); [destruct (Z.ltb_spec (x v) (Z.of_nat n))|]; cbn [andb]; [now rewrite Z2Nat.id by auto| |];
    rewrite (tab_outside np v n cpd cs (Z.of_nat i) (x v) Hok); try ring; try (apply zrange_In; exists i; auto); rewrite zrange_In; intros (j & Hj & E); lia.
Qed.

Lemma children_circuit n m v cs fs : msg_full n m -> Forall2 (good n) cs fs -> NoDup (v :: flat_map cpt_vars cs) -> forall g s lo mid ts,
  node_inv (fun i => dget m (Z.of_nat i)) n g s lo mid ts [v] (fun x i => ind (Z.eqb (x v) (Z.of_nat i))) ->
  exists g' hi ts', fold_right (fun c acc =>
                  match acc with
                  | None => None
                  | Some (g, nx) =>
                      match node_circuit c nx with
                      | None => None
                      | Some (h, o, nx') => match c with FNode _ dom' cpd' _ _ _ => mount_child (zrange n) m s g dom' cpd' h o nx' end
                      end
                  end) (Some (g, mid)) fs = Some (g', hi) /\
    node_inv (fun i => dget m (Z.of_nat i)) n g' s lo hi ts' (v :: flat_map cpt_vars cs) (density v cs).
Proof.
  intros Hm F. induction F as [|c f cs fs Hg F IH]; intros N g s lo mid ts Inv.
  - exists g, mid, ts. split; [reflexivity|]. eapply node_inv_ext; [exact Inv|auto|cbn; tauto|]. intros x i _. unfold density. cbn. ring.
  - cbn [flat_map] in N. rewrite app_comm_cons in N. assert (N0 : NoDup (v :: flat_map cpt_vars cs)).
    { inversion N as [|? ? Nv N']; subst. apply NoDup_app_parts in N'. constructor; [|tauto]. intros X. apply Nv. apply in_or_app. now right. }
    assert (Dis : forall w, In w (v :: flat_map cpt_vars cs) -> ~ In w (cpt_vars c)).
    { intros w Hw Hw'. inversion N as [|? ? Nv N']; subst. apply NoDup_app_parts in N'. destruct N' as (_ & _ & Nd).
      destruct Hw as [<-|Hw]; [apply Nv; apply in_or_app; now left|exact (Nd w Hw' Hw)]. }
    destruct (IH N0 g s lo mid ts Inv) as (g1 & hi1 & ts1 & E1 & Inv1). cbn [fold_right]. rewrite E1.
    destruct Hg as [Hok Hg]. destruct c as [v' dom cpd cs']. destruct f as [v'' dom' cpd' msg' fp' fs']. destruct Hg as (-> & -> & Hd & Hc).
    destruct (Hc hi1) as (h & o & hi2 & q & us & Eh & Invh). rewrite Eh.
    assert (Hok' : cpt_ok (zrange n) (CPT v' (zrange (length dom)) cpd cs')) by (rewrite <- Hd; exact Hok).
    destruct (mount_child_spec n m (length dom) (fun i => dget m (Z.of_nat i)) q v' cpd cs' g1 h s o lo hi1 hi2 ts1 us _ _ _ _ Hm Hok' Inv1 Invh) as (g2 & ts2 & E2 & Inv2).
    { exact Dis. }
    rewrite <- Hd in E2. rewrite E2. eexists _, _, _. split; [reflexivity|]. eapply node_inv_ext; [exact Inv2|auto| |].
    + intros w. cbn [flat_map app]. cbn [In]. rewrite !in_app_iff. cbn [In]. tauto.
    + intros x i Hi. unfold density at 1. cbn beta. rewrite (child_sum n v' (length dom) cpd cs' x i Hok' Hi). rewrite <- Hd. unfold density. cbn [map]. unfold Rprod. cbn [fold_right]. ring.
Qed.

Lemma node_from_children n m v cpd fp cs fs : msg_full n m -> Forall2 (good n) cs fs -> NoDup (v :: flat_map cpt_vars cs) -> forall nx,
  exists g r hi ts, node_circuit (FNode v (zrange n) cpd (Some m) fp fs) nx = Some (g, r, hi) /\
    node_inv (fun i => dget m (Z.of_nat i)) n g r nx hi ts (v :: flat_map cpt_vars cs) (density v cs).
Proof.
  intros Hm F N nx. cbn [node_circuit]. destruct (message_circuit_spec v m n nx Hm) as (g & ts & E & Inv). rewrite E.
  destruct (children_circuit n m v cs fs Hm F N g (S nx) nx _ ts Inv) as (g' & hi & ts' & E' & Inv').
  rewrite E'. eexists _, _, _, _. split; [reflexivity|exact Inv'].
Qed.

Lemma node_spec e t : forall pv np pm f, msg_full np pm -> cpt_ok (zrange np) t -> readable t -> full_for e t -> e pv = zrange np -> NoDup (cpt_vars t) ->
  forward_below e pv (Some pm) t = Some f -> good np t f.
Proof.
  induction t as [v dom cpd cs IH] using cpt_ind'. intros pv np pm f Hm Hok (Hd & Hpos & Hr) (He & Hf) Hp N E. cbn [forward_below] in E.
  assert (Hok' := Hok). rewrite Hd in Hok'. rewrite Hd in Hpos. cbn [cpt_vars] in N.
  assert (Hn : (0 < length dom)%nat) by (destruct Hok as (_ & Ne & _); destruct dom; [contradiction|cbn; lia]).
  destruct (cpt_message np pm (length dom) cpd cs v Hm Hn Hok' Hpos) as (m & fp & Em & Hm').
  rewrite Hp, He, Hd, Em, <- Hd in E. destruct (fold_right _ _ cs) as [fs|] eqn:Efs; [|discriminate]. injection E as <-. apply children_results in Efs.
  split; [exact Hok|]. split; [reflexivity|]. split; [reflexivity|]. split; [exact Hd|]. intros nx.
  assert (F : Forall2 (good (length dom)) cs fs).
  { destruct Hok' as (_ & _ & _ & _ & _ & Hc). apply fold_and_Forall in Hc, Hr, Hf. inversion N as [|? ? _ N']; subst.
    clear -IH Hm' Hc Hr Hf Hd Efs N'. revert fs Efs IH Hc Hr Hf N'. induction cs as [|c cs IHc]; intros fs Efs IH Hc Hr Hf N'; inversion Efs; subst; constructor.
    - pose proof (Forall_inv IH) as K1. cbn [flat_map] in N'. apply NoDup_app_parts in N'. eapply K1; eauto; try (now apply Forall_inv in Hc); try (now apply Forall_inv in Hr); try (now apply Forall_inv in Hf); tauto.
    - cbn [flat_map] in N'. apply NoDup_app_parts in N'. inversion IH; inversion Hc; inversion Hr; inversion Hf; subst. apply IHc; auto. tauto. }
  destruct (node_from_children (length dom) m v cpd fp cs fs Hm' F N nx) as (g & r & hi & ts & Eg & Inv). rewrite <- Hd in Eg. eauto 10.
Qed.

(** ** The network *)
Theorem C38_bayesian_network_partial b : network_ok b -> network_readable b -> n_children b <> [] ->
  exists g t, as_probabilistic_circuit b = Some g /\ layered_circuit g t /\ smooth dist_vars t /\ decomposable dist_vars t /\
    (forall v, mentions dist_vars t v <-> In v (n_var b :: flat_map cpt_vars (n_children b))) /\
    forall x, likelihood_at g (at_real x) (Fin (joint b x)).
Proof.
  intros (Nd & Ne & Hp & Hc & Nv) (Hd & Hpos & Hr) Hne. destruct (full_event_spec b Nv) as [E0 Ef].
  assert (Hn : (0 < length (n_dom b))%nat) by (destruct (n_dom b); [contradiction|cbn; lia]).
  assert (Hp' := Hp). rewrite Hd in Hp'. rewrite Hd in Hpos.
  destruct (root_message (length (n_dom b)) (n_probs b) Hn Hp' Hpos) as (m & fp & Er & Hm & Gm).
  assert (Hw : Forall (tables_ok (full_event b) (n_var b)) (n_children b)).
  { rewrite Forall_forall in *. intros c Hin. eapply cpt_ok_tables; [now apply Hc| |rewrite E0; apply incl_refl].
    clear -Hc Ef Hin. specialize (Hc c Hin). specialize (Ef c Hin). revert Hc Ef. generalize (n_dom b). generalize (full_event b). intros e. clear Hin. induction c as [v dom cpd cs IH] using cpt_ind'.
    intros pd (N & _ & _ & _ & _ & Hc) (E & Hf). split; [now rewrite E|]. split; [rewrite E; apply incl_refl|]. apply fold_and_Forall. apply fold_and_Forall in Hc, Hf. rewrite Forall_forall in *. eauto. }
  destruct (children_exist (full_event b) (n_var b) (Some m) (n_children b)) as (fs & Efs).
  { rewrite Forall_forall in Hw. intros c Hin. apply forward_total; auto. intros m' X. injection X as <-. apply Hm. }
  assert (F2 := children_results _ _ _ _ _ Efs).
  assert (F : Forall2 (good (length (n_dom b))) (n_children b) fs).
  { inversion Nv as [|? ? _ Nv']; subst. rewrite Hd in Hc. clear -F2 Hc Hr Ef Nv' Hm E0 Hd. revert fs F2 Hc Hr Ef Nv'. induction (n_children b) as [|c cs IH]; intros fs F2 Hc Hr Ef Nv'; inversion F2; subst; constructor.
    - cbn [flat_map] in Nv'. apply NoDup_app_parts in Nv'. eapply (node_spec (full_event b) _ (n_var b)); eauto; try (now apply Forall_inv in Hc); try (now apply Forall_inv in Hr); try (now apply Forall_inv in Ef); try (now rewrite <- Hd); tauto.
    - cbn [flat_map] in Nv'. apply NoDup_app_parts in Nv'. inversion Hc; inversion Hr; inversion Ef; subst. apply IH; auto. tauto. }
  destruct (node_from_children (length (n_dom b)) m (n_var b) [] fp (n_children b) fs Hm F Nv 0%nat) as (g & r & hi & ts & Eg & Inv).
  assert (Val := node_value _ _ _ _ _ _ _ _ _ Inv). destruct Inv as [Lg Rg Ig Hle Hlen Sg Dg Og Wg Vg Kg Fg].
  exists g, (PSum ts). split; [|split; [exact Lg|split; [exact Sg|split; [exact Dg|split; [exact Vg|]]]]].
  - unfold as_probabilistic_circuit, forward_pass. destruct (n_children b); [contradiction|]. rewrite E0, Hd, Er, Efs, Eg. reflexivity.
  - intros x. match type of Val with ?P -> _ => assert P as Hq by (intros i Hi; left; apply Hm, zrange_In; exists i; auto) end.
    specialize (Val Hq x). cbn beta in Val. revert Val. match goal with |- likelihood_at _ _ (Fin ?v) -> _ => assert (v = joint b x) as ->; [|auto] end.
    unfold density, joint. rewrite (Rsum_ext _ (fun i => (dget (n_probs b) (Z.of_nat i) * Rprod (map (fun c => below x c (Z.of_nat i)) (n_children b))) * ind (Z.eqb (x (n_var b)) (Z.of_nat i)))) by (intros; rewrite Gm; ring).
    rewrite (Rsum_pick _ (fun i => dget (n_probs b) (Z.of_nat i) * Rprod (map (fun c => below x c (Z.of_nat i)) (n_children b)))).
    destruct (Z.leb_spec 0 (x (n_var b))); [destruct (Z.ltb_spec (x (n_var b)) (Z.of_nat (length (n_dom b))))|]; cbn [andb]; [now rewrite Z2Nat.id by auto| |];
      rewrite (dget_absent (n_probs b) (x (n_var b))); try ring; intros X; apply Hp' in X; apply zrange_In in X; destruct X as (j & Hj & E); lia.
Qed.
Print Assumptions C38_bayesian_network_partial.

(** ** Where it fails *)
(** A network of one node has no circuit. *)
Definition coin : network := mkNet 0 [0; 1]%Z [(0%Z, 1/2); (1%Z, 1/2)] [].

Lemma N01 : NoDup [0; 1]%Z.
Proof. repeat constructor; cbn; intuition congruence. Qed.

Theorem C38_refuted : ~ C38_full.
Proof.
  intros H. destruct (H coin) as (g & E & _).
  - split; [exact N01|]. split; [discriminate|]. split; [split; [apply two_states; [discriminate|lra|lra]|split; [intros x; cbn; tauto|cbn; lra]]|].
    split; [constructor|]. cbn. repeat constructor. intros [].
  - discriminate E.
Qed.
Print Assumptions C38_refuted.

(** With zeros in the tables the states of a message are not in the order of the domain, and the interaction with the parent
    is applied to the wrong states. *)
Definition C38_edges_full : Prop := forall b, network_ok b -> n_children b <> [] ->
  exists g, as_probabilistic_circuit b = Some g /\ forall x, network_states x b -> likelihood_at g (at_real x) (Fin (joint b x)).

Definition flip_rows : list (Z * dict) := [(0%Z, [(1%Z, 1)]); (1%Z, [(0%Z, 1)])].
Definition flip : network := mkNet 0 [0; 1]%Z [(0%Z, 1/2); (1%Z, 1/2)] [CPT 1 [0; 1]%Z flip_rows []].

Lemma one_state k a : 0 <= a -> dict_ok [(k, a)].
Proof. intros Ha. split; cbn; [constructor; [intros []|constructor]|constructor; [exact Ha|constructor]]. Qed.

Lemma flip_ok : network_ok flip.
Proof.
  split; [exact N01|]. split; [discriminate|]. split.
  { split; [apply two_states; [discriminate|lra|lra]|]. split; [intros x; cbn; tauto|cbn; lra]. }
  split.
  - constructor; [|constructor]. split; [exact N01|]. split; [discriminate|]. split; [exact N01|]. split; [cbn; tauto|]. split; [|exact I].
    constructor; [|constructor; [|constructor]]; (split; [apply one_state; lra|]; split; [intros x [<-|[]]; cbn; tauto|cbn; lra]).
  - cbn. repeat constructor; cbn; intuition congruence.
Qed.

Lemma flip_message m : msg_full 2 m -> (forall k, dget m k = dget [(0%Z, 1/2); (1%Z, 1/2)] k) ->
  exists m' fp, cpt_forward (Some m) flip_rows [0; 1]%Z [0; 1]%Z = Some (Some m', fp) /\ dict_ok m' /\ Rsum (vals m') = 1 /\ keys m' = [1; 0]%Z.
Proof.
  intros (_ & Hm & _) Gm. assert (G0 := Gm 0%Z). assert (G1 := Gm 1%Z). unfold dget at 2 in G0. unfold dget at 2 in G1. cbn in G0, G1.
  assert (Hr : rows_ok flip_rows [0; 1]%Z) by (intros s [<-|[<-|[]]]; eexists; (split; [reflexivity|]); apply one_state; lra).
  destruct (cpt_forward_spec m flip_rows [0; 1]%Z [0; 1]%Z Hm N01 Hr) as (msg & E & Hs). cbn zeta in Hs.
  destruct Hs as [(X & _)|(_ & m' & -> & Ho & S1 & _ & _)].
  { exfalso. revert X. unfold raw, share, tmass, tab, ev_ind, flip_rows. cbn. rewrite G0, G1. unfold dget. cbn. intros X. field_simplify in X; lra. }
  exists m'. eexists. split; [exact E|]. split; [exact Ho|]. split; [exact S1|].
  unfold cpt_forward in E. cbn [foldM] in E. unfold parent_turn in E. rewrite G0, G1 in E. change (row_of flip_rows 0%Z) with (Some [(1%Z, 1)]) in E. change (row_of flip_rows 1%Z) with (Some [(0%Z, 1)]) in E.
  assert (Reqb (1/2) 0 = false) as Q by (destruct (Reqb_spec (1/2) 0); [lra|reflexivity]). rewrite Q in E.
  assert (D1 : forall k, dget [(k, 1)] k = 1) by (intros k; unfold dget; cbn; now rewrite Z.eqb_refl).
  assert (C : forall k, In k [0; 1]%Z -> exists c lp, sym_log_conditional [(k, 1)] [0; 1]%Z = (Some c, lp) /\ keys c = [k] /\ NoDup (keys c)).
  { intros k Hk. destruct (conditional_spec [(k, 1)] [0; 1]%Z (one_state k 1 ltac:(lra)) N01) as [(X & _)|(_ & c & Ec & Hc & _ & _ & Kc)].
    - exfalso. revert X. unfold pmass. destruct Hk as [<-|[<-|[]]]; unfold dget; cbn; lra.
    - exists c. eexists. split; [exact Ec|]. split; [|apply Hc]. rewrite Kc. cbn [filter]. destruct Hk as [<-|[<-|[]]]; unfold dget; cbn; destruct (Rltb_spec 0 1), (Rltb_spec 0 0); try lra; reflexivity. }
  destruct (C 1%Z) as (c1 & l1 & E1 & K1 & N1); [cbn; tauto|]. destruct (C 0%Z) as (c0 & l0 & E0 & K0 & N0); [cbn; tauto|]. rewrite E1 in E. cbn beta iota in E. rewrite E0 in E. cbn [fst snd] in E.
  destruct (Reqb _ 0); [discriminate|]. match type of E with Some (Some (dnormalize ?p), _) = _ => assert (E' : dnormalize p = m') by congruence; assert (Kp : keys p = [1; 0]%Z) end.
  { assert (A1 : keys (add_entries (1/2) c1 []) = [1]%Z) by (rewrite add_entries_new; [now rewrite K1|exact N1|intros k _ []]).
    rewrite add_entries_new; [now rewrite A1, K0|exact N0|]. rewrite A1, K0. intros k [<-|[]]. cbn. intuition congruence. }
  subst m'. unfold dnormalize, keys in *. now rewrite map_map.
Qed.

Theorem C38_edges_refuted : ~ C38_edges_full.
Proof.
  intros H. destruct (H flip flip_ok) as (g & E & L); [discriminate|].
  assert (Hd : distribution_over (zrange 2) [(0%Z, 1/2); (1%Z, 1/2)]) by (split; [apply two_states; [discriminate|lra|lra]|split; [intros x; cbn; tauto|cbn; lra]]).
  destruct (root_message 2 [(0%Z, 1/2); (1%Z, 1/2)]) as (m & fp & Er & Hm & Gm); [lia|exact Hd|intros k [<-|[<-|[]]]; unfold dget; cbn; lra|].
  destruct (flip_message m Hm Gm) as (m' & fp' & Ec & Ho & S1 & K').
  assert (Lm : length m' = 2%nat) by (unfold keys in K'; rewrite <- (map_length fst), K'; reflexivity).
  change (zrange 2) with [0; 1]%Z in Er.
  unfold as_probabilistic_circuit, forward_pass, full_event in E. cbn [n_children n_var n_dom n_probs flip fold_left cpt_events Nat.eqb] in E. rewrite Er in E.
  cbn [fold_right forward_below] in E. cbn [Nat.eqb] in E. rewrite Ec in E. cbn [node_circuit fold_right] in E.
  destruct (message_circuit_spec 0 m 2 0 Hm) as (g0 & ts0 & E0 & Inv0). rewrite E0 in E.
  destruct (any_message_circuit 1 m' 2 4 Ho S1 Lm) as (g1 & ts1 & E1 & Inv1). cbn [Nat.add] in E, E1, Inv0, Inv1. rewrite E1 in E.
  assert (Hok : cpt_ok (zrange 2) (CPT 1 (zrange 2) flip_rows [])) by (destruct flip_ok as (_ & _ & _ & X & _); now apply Forall_inv in X).
  destruct (mount_child_spec 2 m 2 _ _ 1 flip_rows [] g0 g1 1%nat 5%nat 0 4 8 ts0 ts1 _ _ _ _ Hm Hok Inv0 Inv1) as (g2 & ts2 & E2 & Inv2); [cbn; intros w [<-|[]] [X|[]]; discriminate|].
  change (zrange 2) with [0; 1]%Z in E2. rewrite E2 in E. injection E as <-.
  assert (Val := node_value _ _ _ _ _ _ _ _ _ Inv2). specialize (Val (fun i Hi => Rlt_le _ _ (proj2 (proj2 (proj2 (proj2 Hm))) (Z.of_nat i) (proj2 (zrange_In 2 _) (ex_intro _ i (conj Hi eq_refl)))))).
  specialize (Val (fun v => if (v =? 0)%nat then 0%Z else 1%Z)). specialize (L (fun v => if (v =? 0)%nat then 0%Z else 1%Z)).
  assert (St : network_states (fun v => if (v =? 0)%nat then 0%Z else 1%Z) flip) by (split; [now left|constructor; [split; [right; now left|exact I]|constructor]]).
  assert (Y := ni_smooth _ _ _ _ _ _ _ _ _ Inv2). assert (Z := ni_layered _ _ _ _ _ _ _ _ _ Inv2).
  assert (X := eq_trans (likelihood_at_det _ _ _ _ Z Y (L St)) (eq_sym (likelihood_at_det _ _ _ _ Z Y Val))). injection X as X. rewrite K' in X. revert X. unfold joint, below, tab, flip_rows, ind. cbn. rewrite !Gm. unfold dget. cbn. lra.
Qed.
Print Assumptions C38_edges_refuted.

(** ** Case: three nodes, with a zero in a table below the first row *)
Definition sprinkler : network :=
  mkNet 0 [0; 1]%Z [(0%Z, 1/4); (1%Z, 3/4)]
    [CPT 1 [0; 1]%Z [(0%Z, [(0%Z, 1/3); (1%Z, 2/3)]); (1%Z, [(1%Z, 1)])] [CPT 2 [0; 1]%Z [(0%Z, [(0%Z, 1/5); (1%Z, 4/5)]); (1%Z, [(0%Z, 1)])] []]].

Lemma sprinkler_ok : network_ok sprinkler.
Proof.
  assert (D2 : forall a b, 0 <= a -> 0 <= b -> a + b = 1 -> distribution_over [0; 1]%Z [(0%Z, a); (1%Z, b)]).
  { intros a b Ha Hb S. split; [apply two_states; [discriminate|auto|auto]|]. split; [intros x; cbn; tauto|cbn; lra]. }
  assert (D1 : forall k, In k [0; 1]%Z -> distribution_over [0; 1]%Z [(k, 1)]).
  { intros k Hk. split; [apply one_state; lra|]. split; [intros x [<-|[]]; exact Hk|cbn; lra]. }
  split; [exact N01|]. split; [discriminate|]. split; [apply D2; lra|]. split.
  - constructor; [|constructor]. split; [exact N01|]. split; [discriminate|]. split; [exact N01|]. split; [cbn; tauto|]. split.
    + constructor; [|constructor; [|constructor]]; cbn [snd]; [apply D2; lra|apply D1; cbn; tauto].
    + split; [|exact I]. split; [exact N01|]. split; [discriminate|]. split; [exact N01|]. split; [cbn; tauto|]. split; [|exact I].
      constructor; [|constructor; [|constructor]]; cbn [snd]; [apply D2; lra|apply D1; cbn; tauto].
  - cbn. repeat constructor; cbn; intuition congruence.
Qed.

Example C38_case : exists g, as_probabilistic_circuit sprinkler = Some g /\
  likelihood_at g (at_real (fun v => if (v =? 1)%nat then 1%Z else 0%Z)) (Fin (1/6)) /\
  likelihood_at g (at_real (fun v => if (v =? 0)%nat then 1%Z else 0%Z)) (Fin 0).
Proof.
  destruct (C38_bayesian_network_partial sprinkler sprinkler_ok) as (g & t & E & _ & _ & _ & _ & L).
  - split; [reflexivity|]. split; [intros k [<-|[<-|[]]]; unfold dget; cbn; lra|]. constructor; [|constructor]. split; [reflexivity|]. split; [intros k [<-|[<-|[]]]; unfold tab, dget; cbn; lra|].
    split; [|exact I]. split; [reflexivity|]. split; [intros k [<-|[<-|[]]]; unfold tab, dget; cbn; lra|exact I].
  - discriminate.
  - exists g. split; [exact E|]. split; [replace (1/6) with (joint sprinkler (fun v => if (v =? 1)%nat then 1%Z else 0%Z)); [apply L|]|replace 0 with (joint sprinkler (fun v => if (v =? 0)%nat then 1%Z else 0%Z)); [apply L|]];
      unfold joint, tab, dget; cbn; unfold tab, dget; cbn; field.
Qed.
