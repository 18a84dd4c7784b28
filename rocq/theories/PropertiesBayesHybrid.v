(** * Property C74: the circuit of a Bayesian network with circuit nodes *)
From Coq Require Import List Arith Bool Lia ZArith Reals Lra Permutation.
From Verif Require Import Num Graph GraphFacts Spec SpecFacts Circuit EvalFacts VarFacts Interval Dist DistFacts TreeProb TreeLocal
  Conditional LeafCond SupportFacts ModeFacts PropertiesDist PropertiesQuery PropertiesProb PropertiesSupport Settled
  Multinomial MultinomialFacts Mixture Interaction MountTree PropertiesInteraction Bayes BayesFacts PropertiesForward BayesNet BayesCircuit PropertiesBayes
  WholeLeaf BayesHybrid BayesHybridFacts.
Import ListNotations.
Local Set Bullet Behavior "Strict Subproofs".
Local Open Scope R_scope.

(** ** The specification: root probability times one table entry or one density per node, over all states of the tables *)
Fixpoint hbelow (x : nat -> R) (t : hnode) (s : Z) : R :=
  match t with
  | HTable v dom cpd cs => Rsum (map (fun k => ind (Reqb (x v) (IZR k)) * (tab cpd s k * Rprod (map (fun c => hbelow x c k) cs))) dom)
  | HCircuit vs cpd => match find (fun kt => Z.eqb (fst kt) s) cpd with Some kt => likR (snd kt) x | None => 0 end
  end.
Definition hjoint (b : hnetwork) (x : nat -> R) : R :=
  Rsum (map (fun k => ind (Reqb (x (hn_var b)) (IZR k)) * (dget (hn_probs b) k * Rprod (map (fun c => hbelow x c k) (hn_children b)))) (hn_dom b)).

(** ** Networks *)

(** A valid circuit over the variables of the node, whose leaves are distributions over the domains of their variables. *)
Definition circuit_valid (vs : list (nat * evset)) (t : pc dist) : Prop :=
  normalised t /\ fin_sums t /\ smooth dist_vars t /\ decomposable dist_vars t /\ all_leaves dist_ok t /\
  all_leaves (fun d => forall A, In (dvar d, A) vs -> whole d A) t /\ forall v, mentions dist_vars t v <-> In v (map fst vs).

Fixpoint hnode_ok (pdom : list Z) (t : hnode) : Prop :=
  match t with
  | HTable v dom cpd cs => cpt_ok pdom (CPT v dom cpd []) /\ fold_right and True (map (hnode_ok dom) cs)
  | HCircuit vs cpd => NoDup (map fst cpd) /\ (forall s, In s (map fst cpd) <-> In s pdom) /\ Forall (fun kt => circuit_valid vs (snd kt)) cpd
  end.
Fixpoint hnode_vars (t : hnode) : list nat := match t with HTable v _ _ cs => v :: flat_map hnode_vars cs | HCircuit vs _ => map fst vs end.

Definition hnetwork_ok (b : hnetwork) : Prop :=
  NoDup (hn_dom b) /\ hn_dom b <> [] /\ distribution_over (hn_dom b) (hn_probs b) /\ Forall (hnode_ok (hn_dom b)) (hn_children b) /\
  NoDup (hn_var b :: flat_map hnode_vars (hn_children b)).

(** Tables as in C38; the parent of a circuit node has at least two states, and its circuits are neither mixtures nor can they
    be simplified. *)
Fixpoint hreadable (pdom : list Z) (t : hnode) : Prop :=
  match t with
  | HTable v dom cpd cs => dom = zrange (length dom) /\ (forall k, In k dom -> 0 < tab cpd 0 k) /\ fold_right and True (map (hreadable dom) cs)
  | HCircuit vs cpd => (2 <= length pdom)%nat /\ Forall (fun kt => settled (snd kt) /\ is_sum (snd kt) = false) cpd
  end.
Definition hnetwork_readable (b : hnetwork) : Prop :=
  hn_dom b = zrange (length (hn_dom b)) /\ (forall k, In k (hn_dom b) -> 0 < dget (hn_probs b) k) /\ Forall (hreadable (hn_dom b)) (hn_children b).

(** Full statement: the circuit has the density of the network.  Already with these guards it is false, see below. *)
Definition C74_full : Prop := forall b, hnetwork_ok b -> hnetwork_readable b -> hn_children b <> [] ->
  exists g, hybrid_circuit b = Some g /\ forall x, likelihood_at g x (Fin (hjoint b x)).

(** The circuits of every circuit node are listed in the order of the states of the parent. *)
Fixpoint hordered (pdom : list Z) (t : hnode) : Prop :=
  match t with
  | HTable v dom cpd cs => fold_right and True (map (hordered dom) cs)
  | HCircuit vs cpd => map fst cpd = pdom
  end.

(** ** What the code computes: the circuits of a node are read by position *)
Fixpoint hplaced (x : nat -> R) (t : hnode) (s : Z) : R :=
  match t with
  | HTable v dom cpd cs => Rsum (map (fun k => ind (Reqb (x v) (IZR k)) * (tab cpd s k * Rprod (map (fun c => hplaced x c k) cs))) dom)
  | HCircuit vs cpd => likR (snd (nth (Z.to_nat s) cpd none)) x
  end.
Definition hjoint_placed (b : hnetwork) (x : nat -> R) : R :=
  Rsum (map (fun k => ind (Reqb (x (hn_var b)) (IZR k)) * (dget (hn_probs b) k * Rprod (map (fun c => hplaced x c k) (hn_children b)))) (hn_dom b)).

Lemma hnode_ind' (P : hnode -> Prop) : (forall v dom cpd cs, Forall P cs -> P (HTable v dom cpd cs)) -> (forall vs cpd, P (HCircuit vs cpd)) -> forall t, P t.
Proof.
  intros H1 H2. fix IH 1. intros [v dom cpd cs|vs cpd]; [|apply H2]. apply H1. induction cs as [|c cs IHc]; constructor; [apply IH|exact IHc].
Qed.

(** ** The event without evidence *)
Fixpoint hfull_for (e : sevent) (t : hnode) : Prop :=
  match t with
  | HTable v dom _ cs => e v = ESym dom /\ fold_right and True (map (hfull_for e) cs)
  | HCircuit vs _ => forall v A, In (v, A) vs -> e v = A
  end.

Lemma hfull_for_ext (e e' : sevent) t : (forall v, In v (hnode_vars t) -> e v = e' v) -> hfull_for e t -> hfull_for e' t.
Proof.
  induction t as [v dom cpd cs IH|vs cpd] using hnode_ind'; intros H Hf; cbn [hfull_for hnode_vars] in *.
  - destruct Hf as [E Hc]. split; [rewrite <- E; symmetry; apply H; now left|]. apply fold_and_Forall. apply fold_and_Forall in Hc. rewrite Forall_forall in *. intros c Hin. apply (IH c Hin); auto.
    intros w Hw. apply H. right. apply in_flat_map. eauto.
  - intros v A Hin. rewrite <- H; [now apply Hf|]. exact (in_map fst _ _ Hin).
Qed.

Lemma assign_outside (vs : list (nat * evset)) : forall (e : sevent) u, ~ In u (map fst vs) -> fold_left (fun (e : sevent) vA u => if (u =? fst vA)%nat then snd vA else e u) vs e u = e u.
Proof.
  induction vs as [|[v A] vs IH]; intros e u Hu; [reflexivity|]. cbn [fold_left fst snd map] in *. rewrite IH; [|intros X; apply Hu; now right].
  destruct (Nat.eqb_spec u v) as [->|]; [exfalso; apply Hu; now left|reflexivity].
Qed.

Lemma assign_inside (vs : list (nat * evset)) : NoDup (map fst vs) -> forall (e : sevent) v A, In (v, A) vs -> fold_left (fun (e : sevent) vA u => if (u =? fst vA)%nat then snd vA else e u) vs e v = A.
Proof.
  induction vs as [|[w B] vs IH]; intros N e v A Hin; [destruct Hin|]. cbn [fold_left map fst snd] in *. inversion N as [|? ? Nw N']; subst. destruct Hin as [E|Hin].
  - injection E as -> ->. rewrite assign_outside by exact Nw. now rewrite Nat.eqb_refl.
  - now apply IH.
Qed.

Lemma fold_hevents_outside cs : Forall (fun t => forall (e : sevent) u, ~ In u (hnode_vars t) -> hnode_events e t u = e u) cs ->
  forall (e : sevent) u, ~ In u (flat_map hnode_vars cs) -> fold_left hnode_events cs e u = e u.
Proof.
  induction 1 as [|c cs Hc _ IH]; intros e u Hu; [reflexivity|]. cbn [fold_left flat_map] in *. rewrite in_app_iff in Hu. rewrite IH by tauto. apply Hc. tauto.
Qed.

Lemma hevents_outside t : forall (e : sevent) u, ~ In u (hnode_vars t) -> hnode_events e t u = e u.
Proof.
  induction t as [v dom cpd cs IH|vs cpd] using hnode_ind'; intros e u Hu; cbn [hnode_events hnode_vars] in *.
  - rewrite fold_hevents_outside; [|exact IH|intros X; apply Hu; now right]. destruct (Nat.eqb_spec u v) as [->|]; [exfalso; apply Hu; now left|reflexivity].
  - now apply assign_outside.
Qed.

Lemma fold_hevents_full cs : Forall (fun t => forall e, NoDup (hnode_vars t) -> hfull_for (hnode_events e t) t) cs ->
  forall e, NoDup (flat_map hnode_vars cs) -> Forall (hfull_for (fold_left hnode_events cs e)) cs.
Proof.
  induction 1 as [|c cs Hc _ IH]; intros e N; [constructor|]. cbn [fold_left flat_map] in *. apply NoDup_app_parts in N. destruct N as (N1 & N2 & N3).
  constructor; [|now apply IH]. eapply hfull_for_ext; [|apply (Hc e N1)]. intros v Hv. symmetry. apply fold_hevents_outside; [apply Forall_forall; intros; now apply hevents_outside|]. now apply N3.
Qed.

Lemma hevents_full t : forall e, NoDup (hnode_vars t) -> hfull_for (hnode_events e t) t.
Proof.
  induction t as [v dom cpd cs IH|vs cpd] using hnode_ind'; intros e N; cbn [hnode_vars hnode_events hfull_for] in *.
  - inversion N as [|? ? Nv N']; subst. split.
    + rewrite fold_hevents_outside; [now rewrite Nat.eqb_refl|apply Forall_forall; intros; now apply hevents_outside|exact Nv].
    + apply fold_and_Forall. now apply fold_hevents_full.
  - intros v A Hin. now apply assign_inside.
Qed.

Lemma hfull_event_spec b : NoDup (hn_var b :: flat_map hnode_vars (hn_children b)) -> hfull_event b (hn_var b) = ESym (hn_dom b) /\ Forall (hfull_for (hfull_event b)) (hn_children b).
Proof.
  intros N. inversion N as [|? ? Nv N']; subst. unfold hfull_event. split.
  - rewrite fold_hevents_outside; [now rewrite Nat.eqb_refl|apply Forall_forall; intros; now apply hevents_outside|exact Nv].
  - apply fold_hevents_full; [apply Forall_forall; intros; now apply hevents_full|exact N'].
Qed.

(** ** The circuit of a node *)
Notation real_inv := (@node_inv_at (nat -> R) (fun x => x)).

Definition hdensity (v : nat) (cs : list hnode) (x : nat -> R) (i : nat) : R := ind (Reqb (x v) (IZR (Z.of_nat i))) * Rprod (map (fun c => hplaced x c (Z.of_nat i)) cs).

(** The child [c] of a node with [np] states and its result [f] of the forward pass can be turned into a circuit. *)
Definition hgood (np : nat) (c : hnode) (f : hfnode) : Prop :=
  match c, f with
  | HTable v dom cpd cs, HFTable _ dom' cpd' _ _ _ =>
      cpt_ok (zrange np) (CPT v dom cpd []) /\ dom' = dom /\ cpd' = cpd /\ dom = zrange (length dom) /\
      forall nx, exists g r hi q ts, hnode_circuit f nx = Some (g, r, hi) /\ real_inv q (length dom) g r nx hi ts (hnode_vars c) (hdensity v cs)
  | HCircuit vs cpd, HFCircuit _ _ _ =>
      forall nx, exists g r hi q ts, hnode_circuit f nx = Some (g, r, hi) /\ real_inv q np g r nx hi ts (hnode_vars c) (fun x i => likR (snd (nth i cpd none)) x)
  | _, _ => False
  end.

Lemma hchild_sum v n cpd cs x i :
  Rsum (map (fun j => tab cpd (Z.of_nat i) (Z.of_nat j) * hdensity v cs x j) (seq 0 n)) = hplaced x (HTable v (zrange n) cpd cs) (Z.of_nat i).
Proof.
  cbn [hplaced]. rewrite (zrange_sum n (fun k => ind (Reqb (x v) (IZR k)) * (tab cpd (Z.of_nat i) k * Rprod (map (fun c => hplaced x c k) cs)))).
  apply Rsum_ext. intros j _. unfold hdensity. ring.
Qed.

Lemma hchildren_circuit n m v cs fs : msg_full n m -> Forall2 (hgood n) cs fs -> NoDup (v :: flat_map hnode_vars cs) -> forall g s lo mid ts,
  real_inv (fun i => dget m (Z.of_nat i)) n g s lo mid ts [v] (fun x i => ind (Reqb (x v) (IZR (Z.of_nat i)))) ->
  exists g' hi ts', fold_right (fun c acc =>
                  match acc with
                  | None => None
                  | Some (g, nx) =>
                      match hnode_circuit c nx with
                      | None => None
                      | Some (h, o, nx') =>
                          match c with
                          | HFTable _ dom' cpd' _ _ _ => mount_child (zrange n) m s g dom' cpd' h o nx'
                          | HFCircuit _ _ _ => mount_circuit m s g h o nx'
                          end
                      end
                  end) (Some (g, mid)) fs = Some (g', hi) /\
    real_inv (fun i => dget m (Z.of_nat i)) n g' s lo hi ts' (v :: flat_map hnode_vars cs) (hdensity v cs).
Proof.
  intros Hm F. induction F as [|c f cs fs Hg F IH]; intros N g s lo mid ts Inv.
  - exists g, mid, ts. split; [reflexivity|]. eapply node_inv_ext; [exact Inv|auto|cbn; tauto|]. intros x i _. unfold hdensity. cbn. ring.
  - cbn [flat_map] in N. rewrite app_comm_cons in N. assert (N0 : NoDup (v :: flat_map hnode_vars cs)).
    { inversion N as [|? ? Nv N']; subst. apply NoDup_app_parts in N'. constructor; [|tauto]. intros X. apply Nv. apply in_or_app. now right. }
    assert (Dis : forall w, In w (v :: flat_map hnode_vars cs) -> ~ In w (hnode_vars c)).
    { intros w Hw Hw'. inversion N as [|? ? Nv N']; subst. apply NoDup_app_parts in N'. destruct N' as (_ & _ & Nd).
      destruct Hw as [<-|Hw]; [apply Nv; apply in_or_app; now left|exact (Nd w Hw' Hw)]. }
    destruct (IH N0 g s lo mid ts Inv) as (g1 & hi1 & ts1 & E1 & Inv1). cbn [fold_right]. rewrite E1.
    assert (Last : forall G g2 hi2 ts2, real_inv (fun i => dget m (Z.of_nat i)) n g2 s lo hi2 ts2 ((v :: flat_map hnode_vars cs) ++ hnode_vars c) (fun x i => hdensity v cs x i * G x i) ->
      (forall x i, (i < n)%nat -> G x i = hplaced x c (Z.of_nat i)) ->
      real_inv (fun i => dget m (Z.of_nat i)) n g2 s lo hi2 ts2 (v :: flat_map hnode_vars (c :: cs)) (hdensity v (c :: cs))).
    { intros G g2 hi2 ts2 I2 HG. eapply node_inv_ext; [exact I2|auto| |].
      - intros w. cbn [flat_map app]. cbn [In]. rewrite !in_app_iff. cbn [In]. tauto.
      - intros x i Hi. cbn beta. rewrite (HG x i Hi). unfold hdensity. cbn [map]. unfold Rprod. cbn [fold_right]. ring. }
    destruct c as [v' dom cpd cs'|vs cpd], f as [v'' dom' cpd' msg' fp' fs'|gf rf fpf]; cbn [hgood] in Hg; try contradiction.
    + destruct Hg as (Hok & -> & -> & Hd & Hc). destruct (Hc hi1) as (h & o & hi2 & q & us & Eh & Invh). rewrite Eh.
      assert (Hok' : cpt_ok (zrange n) (CPT v' (zrange (length dom)) cpd [])) by (rewrite <- Hd; exact Hok).
      destruct (mount_child_spec n m (length dom) (fun i => dget m (Z.of_nat i)) q v' cpd [] g1 h s o lo hi1 hi2 ts1 us _ _ _ _ Hm Hok' Inv1 Invh Dis) as (g2 & ts2 & E2 & Inv2).
      rewrite <- Hd in E2. rewrite E2. eexists _, _, _. split; [reflexivity|]. eapply Last; [exact Inv2|]. intros x i Hi. cbn beta. rewrite hchild_sum. now rewrite <- Hd.
    + destruct (Hg hi1) as (h & o & hi2 & q & us & Eh & Invh). rewrite Eh.
      destruct (mount_circuit_spec n m (fun i => dget m (Z.of_nat i)) q g1 h s o lo hi1 hi2 ts1 us _ _ _ _ Hm Inv1 Invh Dis) as (g2 & ts2 & E2 & Inv2).
      rewrite E2. eexists _, _, _. split; [reflexivity|]. eapply Last; [exact Inv2|]. intros x i Hi. cbn [hplaced]. now rewrite Nat2Z.id.
Qed.

Lemma hnode_from_children n m v cpd fp cs fs : msg_full n m -> Forall2 (hgood n) cs fs -> NoDup (v :: flat_map hnode_vars cs) -> forall nx,
  exists g r hi ts, hnode_circuit (HFTable v (zrange n) cpd (Some m) fp fs) nx = Some (g, r, hi) /\
    real_inv (fun i => dget m (Z.of_nat i)) n g r nx hi ts (v :: flat_map hnode_vars cs) (hdensity v cs).
Proof.
  intros Hm F N nx. cbn [hnode_circuit]. destruct (message_circuit_at (emb := fun x : nat -> R => x) v m n nx Hm) as (g & ts & E & Inv). rewrite E.
  destruct (hchildren_circuit n m v cs fs Hm F N g (S nx) nx _ ts Inv) as (g' & hi & ts' & E' & Inv').
  rewrite E'. eexists _, _, _, _. split; [reflexivity|exact Inv'].
Qed.

Lemma collect {A B} (f : A -> option B) (P : A -> B -> Prop) l : (forall a, In a l -> exists b, f a = Some b /\ P a b) ->
  exists l', fold_right (fun c acc => match f c, acc with Some f, Some l => Some (f :: l) | _, _ => None end) (Some []) l = Some l' /\ Forall2 P l l'.
Proof.
  induction l as [|a l IH]; intros H; [exists []; split; [reflexivity|constructor]|]. destruct IH as (l' & E & F); [intros; apply H; now right|].
  destruct (H a (or_introl eq_refl)) as (b & Eb & Pb). exists (b :: l'). split; [|now constructor]. cbn [fold_right]. now rewrite Eb, E.
Qed.

Lemma flat_NoDup {A B} (f : A -> list B) l a : NoDup (flat_map f l) -> In a l -> NoDup (f a).
Proof.
  induction l as [|b l IH]; intros N Hin; [destruct Hin|]. cbn [flat_map] in N. apply NoDup_app_parts in N. destruct Hin as [->|Hin]; [tauto|]. apply IH; tauto.
Qed.

Lemma circuit_guard vs t : circuit_valid vs t -> settled t -> is_sum t = false -> circuit_ok vs t.
Proof. intros (H1 & H2 & H3 & H4 & H5 & H6 & H7) Hs Hr. constructor; assumption. Qed.

Lemma hnode_spec e t : forall pv np pm, msg_full np pm -> hnode_ok (zrange np) t -> hreadable (zrange np) t -> hfull_for e t -> e pv = ESym (zrange np) -> ~ In pv (hnode_vars t) -> NoDup (hnode_vars t) ->
  exists f, hforward_below e (zrange np) pv (Some pm) t = Some f /\ hgood np t f.
Proof.
  induction t as [v dom cpd cs IH|vs cpd] using hnode_ind'; intros pv np pm Hm Hok Hr Hf Hp Npv N; cbn [hnode_ok hreadable hfull_for hnode_vars hforward_below] in *.
  - destruct Hok as [Hok Hcs]. destruct Hr as (Hd & Hpos & Hr). destruct Hf as (He & Hf).
    assert (Hok' := Hok). rewrite Hd in Hok'. rewrite Hd in Hpos.
    assert (Hn : (0 < length dom)%nat) by (destruct Hok as (_ & Ne & _); destruct dom; [contradiction|cbn; lia]).
    destruct (cpt_message np pm (length dom) cpd [] v Hm Hn Hok' Hpos) as (m & fp & Em & Hm').
    rewrite Hp, He. cbn [elements]. rewrite Hd, Em, <- Hd. apply fold_and_Forall in Hcs, Hr, Hf. inversion N as [|? ? Nv N']; subst.
    destruct (collect (hforward_below e dom v (Some m)) (hgood (length dom)) cs) as (fs & Efs & F).
    { intros c Hin. rewrite Forall_forall in *. pose proof (IH c Hin v (length dom) m Hm') as X. rewrite <- Hd in X. apply X; auto.
      - intros Y. apply Nv. apply in_flat_map. eauto.
      - eapply flat_NoDup; eauto. }
    rewrite Efs. eexists. split; [reflexivity|]. cbn [hgood]. split; [exact Hok|]. split; [reflexivity|]. split; [reflexivity|]. split; [exact Hd|]. intros nx.
    destruct (hnode_from_children (length dom) m v cpd fp cs fs Hm' F N nx) as (g & r & hi & ts & Eg & Inv). rewrite <- Hd in Eg. eauto 10.
  - destruct Hok as (Nk & Hk & Hv). destruct Hr as [H2 Hr]. rewrite zrange_length in H2.
    assert (HC : Forall (fun kt => circuit_ok vs (snd kt)) cpd) by (rewrite Forall_forall in *; intros kt Hin; destruct (Hr kt Hin); apply circuit_guard; auto).
    destruct (circuit_forward_spec np pv pm vs cpd e Hm H2 Nk Hk HC Hf Hp Npv) as (g & r & E & T). rewrite E. eexists. split; [reflexivity|]. cbn [hgood]. intros nx.
    destruct (circuit_node_inv np pm vs cpd e H2 Nk Hk HC Hf g r nx T) as (ts & Inv). cbn [hnode_circuit]. eauto 10.
Qed.

(** ** The network *)
Lemma C74_placed b : hnetwork_ok b -> hnetwork_readable b -> hn_children b <> [] ->
  exists g t, hybrid_circuit b = Some g /\ layered_circuit g t /\ smooth dist_vars t /\ decomposable dist_vars t /\
    (forall v, mentions dist_vars t v <-> In v (hn_var b :: flat_map hnode_vars (hn_children b))) /\
    forall x, likelihood_at g x (Fin (hjoint_placed b x)).
Proof.
  intros (Nd & Ne & Hp & Hc & Nv) (Hd & Hpos & Hr) Hne. destruct (hfull_event_spec b Nv) as [E0 Ef].
  assert (Hn : (0 < length (hn_dom b))%nat) by (destruct (hn_dom b); [contradiction|cbn; lia]).
  assert (Hp' := Hp). rewrite Hd in Hp'. rewrite Hd in Hpos.
  destruct (root_message (length (hn_dom b)) (hn_probs b) Hn Hp' Hpos) as (m & fp & Er & Hm & Gm).
  destruct (collect (hforward_below (hfull_event b) (hn_dom b) (hn_var b) (Some m)) (hgood (length (hn_dom b))) (hn_children b)) as (fs & Efs & F).
  { intros c Hin. rewrite Forall_forall in *. inversion Nv as [|? ? Nr Nv']; subst. pose proof (hnode_spec (hfull_event b) c (hn_var b) (length (hn_dom b)) m Hm) as X. rewrite <- Hd in X. apply X; auto.
    - intros Y. apply Nr. apply in_flat_map. eauto.
    - eapply flat_NoDup; eauto. }
  destruct (hnode_from_children (length (hn_dom b)) m (hn_var b) [] fp (hn_children b) fs Hm F Nv 0%nat) as (g & r & hi & ts & Eg & Inv).
  assert (Val := node_value _ _ _ _ _ _ _ _ _ Inv). destruct Inv as [Lg Rg Ig Hle Hlen Sg Dg Og Wg Vg Kg Fg].
  exists g, (PSum ts). split; [|split; [exact Lg|split; [exact Sg|split; [exact Dg|split; [exact Vg|]]]]].
  - unfold hybrid_circuit, hforward_pass. destruct (hn_children b) as [|c cs]; [contradiction|]. rewrite E0. cbn [elements]. rewrite <- Hd in Er, Eg. rewrite Er, Efs, Eg. reflexivity.
  - intros x. match type of Val with ?P -> _ => assert P as Hq by (intros i Hi; left; apply Hm, zrange_In; exists i; auto) end.
    specialize (Val Hq x). cbn beta in Val. revert Val. match goal with |- likelihood_at _ _ (Fin ?v) -> _ => assert (v = hjoint_placed b x) as ->; [|auto] end.
    unfold hjoint_placed. rewrite Hd. rewrite (zrange_sum _ (fun k => ind (Reqb (x (hn_var b)) (IZR k)) * (dget (hn_probs b) k * Rprod (map (fun c => hplaced x c k) (hn_children b))))).
    rewrite zrange_length. apply Rsum_ext. intros i _. unfold hdensity. rewrite Gm. ring.
Qed.

Lemma find_placed (cpd : list (Z * pc dist)) n k : map fst cpd = zrange n -> In k (zrange n) -> find (fun kt => Z.eqb (fst kt) k) cpd = Some (nth (Z.to_nat k) cpd none).
Proof.
  intros K Hk. apply zrange_In in Hk. destruct Hk as (i & Hi & ->). rewrite Nat2Z.id.
  assert (L : length cpd = n) by (rewrite <- (map_length fst), K; apply zrange_length).
  assert (Hin : In (nth i cpd none) cpd) by (apply nth_In; lia).
  assert (Ei : fst (nth i cpd none) = Z.of_nat i).
  { rewrite <- (map_nth fst cpd none i), K. unfold zrange. rewrite (nth_indep _ (fst none) (Z.of_nat 0)) by (rewrite map_length, seq_length; lia). rewrite (map_nth Z.of_nat). now rewrite seq_nth by auto. }
  destruct (find (fun kt => Z.eqb (fst kt) (Z.of_nat i)) cpd) as [kt|] eqn:Ef.
  - apply find_some in Ef. destruct Ef as [Hk Ek]. apply Z.eqb_eq in Ek. f_equal. destruct (In_nth cpd kt none Hk) as (j & Hj & <-). f_equal.
    rewrite <- Ei in Ek. rewrite <- !(map_nth fst cpd none) in Ek. apply (NoDup_nth (map fst cpd) (fst none)) in Ek; auto; try (rewrite map_length; lia). rewrite K. apply zrange_NoDup.
  - exfalso. assert (X := find_none _ _ Ef _ Hin). cbn beta in X. rewrite Ei, Z.eqb_refl in X. discriminate.
Qed.

Lemma placed_below t : forall np s x, hreadable (zrange np) t -> hordered (zrange np) t -> In s (zrange np) -> hplaced x t s = hbelow x t s.
Proof.
  induction t as [v dom cpd cs IH|vs cpd] using hnode_ind'; intros np s x Hr Ho Hs; cbn [hreadable hordered hplaced hbelow] in *.
  - destruct Hr as (Hd & _ & Hr). apply fold_and_Forall in Hr, Ho. rewrite Forall_forall in *. apply Rsum_ext. intros k Hk. do 2 f_equal. f_equal. apply map_ext_in. intros c Hin.
    apply (IH c Hin (length dom)); rewrite <- Hd; auto.
  - now rewrite (find_placed cpd np s Ho Hs).
Qed.

(** Proved part: trees of tables and circuit nodes of any size, where the circuits of every circuit node are listed in the order
    of the states of its parent.  Missing: other orders, for which the statement is false; parents with a single state, circuits
    that are mixtures or can be simplified, and the tables excluded in C38. *)
Theorem C74_hybrid_network_partial b : hnetwork_ok b -> hnetwork_readable b -> Forall (hordered (hn_dom b)) (hn_children b) -> hn_children b <> [] ->
  exists g t, hybrid_circuit b = Some g /\ layered_circuit g t /\ smooth dist_vars t /\ decomposable dist_vars t /\
    (forall v, mentions dist_vars t v <-> In v (hn_var b :: flat_map hnode_vars (hn_children b))) /\
    forall x, likelihood_at g x (Fin (hjoint b x)).
Proof.
  intros Hok Hr Ho Hne. destruct (C74_placed b Hok Hr Hne) as (g & t & E & L & S1 & D1 & V & Val). exists g, t. do 5 (split; [assumption|]). intros x.
  assert (X : hjoint_placed b x = hjoint b x); [|rewrite <- X; apply Val]. destruct Hr as (Hd & _ & Hr). rewrite Forall_forall in Hr, Ho.
  unfold hjoint_placed, hjoint. apply Rsum_ext. intros k Hk. do 2 f_equal. f_equal. apply map_ext_in. intros c Hin. apply (placed_below c (length (hn_dom b))); rewrite <- Hd; auto.
Qed.
Print Assumptions C74_hybrid_network_partial.

(** ** Where it fails: the circuits are listed in another order *)
Definition band (k : R) : pc dist := PLeaf (DUnif 1 (mkSint (Fin k) (Fin (k + 1)) true true)).
Definition two_bands (cpd : list (Z * pc dist)) : hnetwork :=
  mkHNet 0 [0; 1]%Z [(0%Z, 1/4); (1%Z, 3/4)] [HCircuit [(1%nat, EInt [ireals])] cpd].

Lemma band_valid k : circuit_valid [(1%nat, EInt [ireals])] (band k).
Proof.
  split; [exact I|]. split; [exact I|]. split; [exact I|]. split; [exact I|]. split; [cbn; exists k, (k + 1); repeat split; lra|]. split.
  - cbn. intros A [X|[]]. now injection X as <-.
  - intros v. cbn. tauto.
Qed.

Lemma two_bands_ok cpd : NoDup (map fst cpd) -> (forall s, In s (map fst cpd) <-> In s [0; 1]%Z) -> Forall (fun kt => exists k, snd kt = band k) cpd ->
  hnetwork_ok (two_bands cpd) /\ hnetwork_readable (two_bands cpd).
Proof.
  intros N K B. split.
  - split; [exact N01|]. split; [discriminate|]. split; [split; [apply two_states; [discriminate|lra|lra]|split; [intros x; cbn; tauto|cbn; lra]]|]. split; [|cbn; repeat constructor; cbn; intuition congruence].
    constructor; [|constructor]. cbn [hnode_ok]. split; [exact N|]. split; [exact K|]. rewrite Forall_forall in *. intros kt Hin. destruct (B kt Hin) as (k & ->). apply band_valid.
  - split; [reflexivity|]. split; [intros k [<-|[<-|[]]]; unfold dget; cbn; lra|]. constructor; [|constructor]. cbn [hreadable]. split; [cbn; lia|].
    rewrite Forall_forall in *. intros kt Hin. destruct (B kt Hin) as (k & ->). split; [exact I|reflexivity].
Qed.

Lemma band_value k x : likR (band k) x = if in_sint (mkSint (Fin k) (Fin (k + 1)) true true) (x 1%nat) then 1 else 0.
Proof.
  unfold likR, band. cbn [semR dvar]. unfold LeafCond.density. cbn [ll1 lo hi]. destruct (in_sint _ _); [|reflexivity]. cbn [nsub nopp nadd]. replace (k + 1 + - k) with 1 by ring. rewrite nlog_one. cbn. rewrite Ropp_0. apply exp_0.
Qed.

Theorem C74_refuted : ~ C74_full.
Proof.
  intros H. set (b := two_bands [(1%Z, band 2); (0%Z, band 0)]).
  destruct (two_bands_ok [(1%Z, band 2); (0%Z, band 0)]) as [Hok Hr].
  { cbn. repeat constructor; cbn; intuition congruence. }
  { cbn. intuition congruence. }
  { repeat constructor; cbn; eauto. }
  destruct (H b Hok Hr) as (g & E & L); [discriminate|]. destruct (C74_placed b Hok Hr) as (g' & t & E' & Lg & Sg & _ & _ & L'); [discriminate|].
  assert (g' = g) as -> by congruence. set (x := fun v : nat => if (v =? 0)%nat then 0 else 1 / 2).
  assert (X := eq_trans (likelihood_at_det _ _ _ _ Lg Sg (L x)) (eq_sym (likelihood_at_det _ _ _ _ Lg Sg (L' x)))). injection X as X. revert X.
  assert (V0 : likR (band 0) x = 1).
  { rewrite band_value. unfold in_sint, above, Interval.below, x. cbn. repeat match goal with |- context [Rleb ?a ?b] => destruct (Rleb_spec a b) | |- context [Rltb ?a ?b] => destruct (Rltb_spec a b) end; cbn; try lra. }
  assert (V2 : likR (band 2) x = 0).
  { rewrite band_value. unfold in_sint, above, Interval.below, x. cbn. repeat match goal with |- context [Rleb ?a ?b] => destruct (Rleb_spec a b) | |- context [Rltb ?a ?b] => destruct (Rltb_spec a b) end; cbn; try lra. }
  assert (J1 : hjoint b x = 1 / 4).
  { unfold hjoint, b. cbn [two_bands hn_var hn_dom hn_probs hn_children map hbelow find fst snd Z.eqb Pos.eqb]. unfold Rsum, Rprod. cbn [fold_right].
    change (x 0%nat) with 0. rewrite !Reqb_IZR, V0, V2. unfold dget, ind. cbn. lra. }
  assert (J2 : hjoint_placed b x = 0).
  { unfold hjoint_placed, b. cbn [two_bands hn_var hn_dom hn_probs hn_children map hplaced]. change (Z.to_nat 0) with 0%nat. change (Z.to_nat 1) with 1%nat. cbn [nth snd]. unfold Rsum, Rprod. cbn [fold_right].
    change (x 0%nat) with 0. rewrite !Reqb_IZR, V0, V2. unfold dget, ind. cbn. lra. }
  rewrite J1, J2. lra.
Qed.
Print Assumptions C74_refuted.

(** ** Case: a continuous node below a table *)
Example C74_case : exists g, hybrid_circuit (two_bands [(0%Z, band 0); (1%Z, band 2)]) = Some g /\
  likelihood_at g (fun v => if (v =? 0)%nat then 1 else 5 / 2) (Fin (3 / 4)) /\ likelihood_at g (fun v => if (v =? 0)%nat then 0 else 5 / 2) (Fin 0).
Proof.
  destruct (two_bands_ok [(0%Z, band 0); (1%Z, band 2)]) as [Hok Hr].
  { cbn. repeat constructor; cbn; intuition congruence. }
  { cbn. intuition congruence. }
  { repeat constructor; cbn; eauto. }
  destruct (C74_hybrid_network_partial _ Hok Hr) as (g & t & E & _ & _ & _ & _ & L); [constructor; [reflexivity|constructor]|discriminate|].
  exists g. split; [exact E|].
  assert (V : forall y, likR (band 2) (fun v : nat => if (v =? 0)%nat then y else 5 / 2) = 1).
  { intros y. rewrite band_value. unfold in_sint, above, Interval.below. cbn. repeat match goal with |- context [Rleb ?a ?b] => destruct (Rleb_spec a b) | |- context [Rltb ?a ?b] => destruct (Rltb_spec a b) end; cbn; try lra. }
  assert (V0 : forall y, likR (band 0) (fun v : nat => if (v =? 0)%nat then y else 5 / 2) = 0).
  { intros y. rewrite band_value. unfold in_sint, above, Interval.below. cbn. repeat match goal with |- context [Rleb ?a ?b] => destruct (Rleb_spec a b) | |- context [Rltb ?a ?b] => destruct (Rltb_spec a b) end; cbn; try lra. }
  assert (J : forall k : Z, (k = 0 \/ k = 1)%Z -> hjoint (two_bands [(0%Z, band 0); (1%Z, band 2)]) (fun v => if (v =? 0)%nat then IZR k else 5 / 2) = if Z.eqb k 1 then 3 / 4 else 0).
  { intros k Hk. unfold hjoint. cbn [two_bands hn_var hn_dom hn_probs hn_children map hbelow find fst snd Z.eqb]. unfold Rsum, Rprod. cbn [fold_right Nat.eqb Z.eqb Pos.eqb]. rewrite !Reqb_IZR, V, V0. unfold dget, ind.
    destruct Hk as [-> | ->]; cbn; lra. }
  assert (J1 := J 1%Z (or_intror eq_refl)). assert (J0 := J 0%Z (or_introl eq_refl)). cbn [Z.eqb Pos.eqb] in J0, J1.
  assert (L1 := L (fun v => if (v =? 0)%nat then 1 else 5 / 2)). assert (L0 := L (fun v => if (v =? 0)%nat then 0 else 5 / 2)). rewrite J1 in L1. rewrite J0 in L0. split; assumption.
Qed.
