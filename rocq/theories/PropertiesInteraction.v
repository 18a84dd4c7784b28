(** * Property C37: mounting one mixture into another with interaction terms *)
From Coq Require Import List Arith Bool Lia ZArith Reals Lra.
From Verif Require Import Num Graph GraphFacts Spec SpecFacts Circuit EvalFacts VarFacts Interval Dist DistFacts TreeProb Simplify SimplifyFacts
  TreeLocal NormalizeFacts Conditional Copy Heap SupportFacts ModeFacts PropertiesQuery PropertiesProb PropertiesSupport
  Interaction InteractionFacts Mounting MountTree.
Import ListNotations.
Local Set Bullet Behavior "Strict Subproofs".
Local Open Scope R_scope.

(** ** The specification: a two-way mixture with table [M] over [n] and [m] components with the values [a] and [b]. *)
Definition table_mix (n m : nat) (M : nat -> nat -> R) (a b : nat -> R) : R :=
  Rsum (map (fun i => Rsum (map (fun j => M i j * a i * b j) (seq 0 m))) (seq 0 n)).

(** [f] is the value of every component of a mixture. *)
Definition values_of {A} (val : A -> num) (l : list A) (f : nat -> R) : Prop := forall i x, nth_error l i = Some x -> val x = Fin (f i).

(** A non-negative table whose rows sum up to [c]. *)
Definition table (n m : nat) (c : nat -> R) (M : nat -> nat -> R) : Prop :=
  (forall i j, (i < n)%nat -> (j < m)%nat -> 0 <= M i j) /\ (forall i, (i < n)%nat -> Rsum (map (M i) (seq 0 m)) = c i).

(** ** Values of the tree *)

Lemma nsum_Forall2 {A B} (rel : A -> B -> Prop) (f : B -> num) (F : A -> R) l l' : Forall2 rel l l' ->
  (forall x y, In x l -> rel x y -> f y = Fin (F x)) -> nsum (map f l') = Fin (Rsum (map F l)).
Proof.
  induction 1 as [|x y l l' H F2 IH]; intros HF; [reflexivity|]. cbn [map]. unfold nsum, Rsum in *. cbn [fold_right].
  rewrite (HF x y) by (auto; now left). rewrite IH; [reflexivity|]. intros; apply HF; auto. now right.
Qed.

Lemma nexp_wexp w : lw_ok w -> nexp w = Fin (wexp w).
Proof. destruct w; cbn; tauto. Qed.

Section Values.
Context {D : Type} (dvars : D -> list nat).
Variables (c : nat -> R) (M : nat -> nat -> R) (ts us : list (pc D)).
Hypothesis Hpos : forall i, (i < length ts)%nat -> 0 < c i.
Hypothesis Htab : table (length ts) (length us) c M.

Lemma proxy_value (val : D -> num) b i p : (i < length ts)%nat -> values_of (semN val) us b -> proxy_tree c M us i p ->
  semN val p = Fin (Rsum (map (fun j => M i j / c i * b j) (seq 0 (length us)))).
Proof.
  intros Hi Hb (l & -> & F). cbn [semN].
  rewrite (nsum_Forall2 _ _ (fun ju => M i (fst ju) / c i * b (fst ju)) _ _ F).
  - f_equal. rewrite filter_sum; [apply (enumerate_sum (fun j => M i j / c i * b j))|]. intros ju _ Hk. unfold keep in Hk. apply negb_false_iff in Hk.
    destruct (Reqb_spec (M i (fst ju)) 0) as [->|]; [|discriminate]. unfold Rdiv. ring.
  - intros [j u] [w t] Hin (E & Hw & Ew). cbn [fst snd] in *. subst t. apply filter_In in Hin. destruct Hin as [Hin _]. apply enumerate_nth in Hin.
    rewrite Nat.sub_0_r in Hin. rewrite (Hb j u (proj2 Hin)), nexp_wexp, Ew by auto. reflexivity.
Qed.

Lemma mixed_value (val : D -> num) a b t : values_of (semN val) ts a -> values_of (semN val) us b -> mixed_tree c M ts us t ->
  semN val t = Fin (table_mix (length ts) (length us) M a b).
Proof.
  intros Ha Hb (l & -> & F). cbn [semN]. rewrite (nsum_Forall2 _ _ (fun it => Rsum (map (fun j => M (fst it) j * a (fst it) * b j) (seq 0 (length us)))) _ _ F).
  - f_equal. apply (enumerate_sum (fun i => Rsum (map (fun j => M i j * a i * b j) (seq 0 (length us))))).
  - intros [i t] [w q] Hin (Ew & p & Ep & Hp). cbn [fst snd] in *. subst w q. apply enumerate_nth in Hin. rewrite Nat.sub_0_r in Hin. destruct Hin as [_ Hin].
    assert (Hi : (i < length ts)%nat) by (apply nth_error_Some; congruence). specialize (Hpos i Hi).
    rewrite nexp_nlog by (cbn; lra). cbn [semN map nprod fold_right]. unfold nprod. cbn [fold_right]. rewrite (Ha i t Hin), (proxy_value val b i p Hi Hb Hp).
    cbn [nmul]. f_equal. rewrite Rmult_1_r, <- !Rsum_scal. apply Rsum_ext. intros j _. field. lra.
Qed.

Lemma proxy_nonempty i p : (i < length ts)%nat -> proxy_tree c M us i p -> exists l, p = PSum l /\ l <> [] /\ Forall lw_ok (map fst l) /\
  Rsum (map wexp (map fst l)) = 1 /\ (forall wt, In wt l -> In (snd wt) us).
Proof.
  intros Hi (l & -> & F). exists l. split; [reflexivity|].
  assert (S : Rsum (map wexp (map fst l)) = 1).
  { rewrite map_map. transitivity (Rsum (map (fun ju : nat * pc D => M i (fst ju) / c i) (filter (keep M i) (enumerate 0 us)))).
    - clear -F. induction F as [|ju wt ? ? (_ & _ & E) F IH]; [reflexivity|]. cbn [map]. unfold Rsum in *. cbn [fold_right]. now rewrite E, IH.
    - rewrite filter_sum.
      + rewrite (enumerate_sum (fun j => M i j / c i)), Rsum_div, (proj2 Htab) by auto. specialize (Hpos i Hi). field. lra.
      + intros ju _ Hk. unfold keep in Hk. apply negb_false_iff in Hk. destruct (Reqb_spec (M i (fst ju)) 0) as [->|]; [|discriminate]. unfold Rdiv. ring. }
  split; [intros ->; cbn in S; lra|]. split; [|split; [exact S|]].
  - apply Forall_map. clear -F. induction F as [|ju wt ? ? (_ & E & _) F IH]; constructor; auto.
  - intros wt Hwt. destruct (Forall2_in_r _ _ _ _ F Hwt) as (ju & Hj & E & _). rewrite E. apply filter_In in Hj. destruct Hj as [Hj _].
    now apply enumerate_In in Hj.
Qed.

Lemma mixed_each t : mixed_tree c M ts us t -> exists l, t = PSum l /\ length l = length ts /\
  (forall wt, In wt l -> exists i ti p, (i < length ts)%nat /\ nth_error ts i = Some ti /\ fst wt = nlog (Fin (c i)) /\ snd wt = PProd [ti; p] /\ proxy_tree c M us i p).
Proof.
  intros (l & -> & F). exists l. split; [reflexivity|]. split.
  - apply Forall2_length_eq in F. rewrite <- F. rewrite <- (map_length fst), (proj2 (enumerate_spec ts 0)), seq_length. reflexivity.
  - intros wt Hwt. destruct (Forall2_in_r _ _ _ _ F Hwt) as ((i & ti) & Hi & E & p & Ep & Hp). cbn [fst snd] in *. apply enumerate_nth in Hi. rewrite Nat.sub_0_r in Hi.
    exists i, ti, p. repeat split; auto; [|tauto]. apply nth_error_Some. destruct Hi as [_ Hi]. congruence.
Qed.

Lemma mixed_leaves (P : D -> Prop) t : Forall (all_leaves P) ts -> Forall (all_leaves P) us -> mixed_tree c M ts us t -> all_leaves P t.
Proof.
  intros Ht Hu H. destruct (mixed_each t H) as (l & -> & _ & Hl). cbn [all_leaves]. apply fold_and_Forall. apply Forall_forall. intros wt Hwt.
  destruct (Hl wt Hwt) as (i & ti & p & Hi & Hn & _ & -> & Hp). destruct (proxy_nonempty i p Hi Hp) as (l' & -> & _ & _ & _ & Hin). cbn [all_leaves map fold_right].
  rewrite Forall_forall in *. split; [apply Ht; eapply nth_error_In; eauto|]. split; [|exact I]. apply fold_and_Forall. apply Forall_forall. intros wu Hwu. auto.
Qed.

Lemma mixed_sums t : Forall (all_sums (Forall lw_ok)) ts -> Forall (all_sums (Forall lw_ok)) us -> mixed_tree c M ts us t -> all_sums (Forall lw_ok) t.
Proof.
  intros Ht Hu H. destruct (mixed_each t H) as (l & -> & _ & Hl). cbn [all_sums]. split.
  - apply Forall_map. apply Forall_forall. intros wt Hwt. destruct (Hl wt Hwt) as (i & ti & p & Hi & Hn & -> & _). apply wexp_nlog. specialize (Hpos i Hi). lra.
  - apply fold_and_Forall. apply Forall_forall. intros wt Hwt.
    destruct (Hl wt Hwt) as (i & ti & p & Hi & Hn & _ & -> & Hp). destruct (proxy_nonempty i p Hi Hp) as (l' & -> & _ & Hw & _ & Hin). cbn [all_sums map fold_right].
    rewrite Forall_forall in Ht, Hu. split; [apply Ht; eapply nth_error_In; eauto|]. split; [|exact I]. split; [exact Hw|].
    apply fold_and_Forall. apply Forall_forall. intros wu Hwu. auto.
Qed.

(** Scopes: [V] and [W] are the variables of the two mixtures. *)
Variables V W : nat -> Prop.
Hypothesis Hts : forall t, In t ts -> smooth dvars t /\ forall v, mentions dvars t v <-> V v.
Hypothesis Hus : forall u, In u us -> smooth dvars u /\ forall v, mentions dvars u v <-> W v.

Lemma proxy_scope i p : (i < length ts)%nat -> proxy_tree c M us i p -> smooth dvars p /\ forall v, mentions dvars p v <-> W v.
Proof.
  intros Hi Hp. destruct (proxy_nonempty i p Hi Hp) as (l & -> & Hne & _ & _ & Hin).
  assert (X : forall wt, In wt l -> smooth dvars (snd wt) /\ forall v, mentions dvars (snd wt) v <-> W v) by (intros wt Hwt; apply Hus; auto).
  assert (Mv : forall v, mentions dvars (PSum l) v <-> W v).
  { intros v. cbn [mentions]. rewrite fold_or_Exists, Exists_exists. split.
    - intros (wt & Hwt & H). now apply (X wt Hwt).
    - intros H. destruct l as [|wt l]; [contradiction|]. exists wt. split; [now left|]. apply X; [now left|exact H]. }
  split; [|exact Mv]. cbn [smooth]. split.
  - intros v Hv. apply Mv in Hv. apply fold_and_Forall. apply Forall_forall. intros wt Hwt. now apply (X wt Hwt).
  - apply fold_and_Forall. apply Forall_forall. intros wt Hwt. now apply X.
Qed.

Lemma mixed_scope t : ts <> [] -> mixed_tree c M ts us t -> smooth dvars t /\ forall v, mentions dvars t v <-> V v \/ W v.
Proof.
  intros Hne H. destruct (mixed_each t H) as (l & -> & Hlen & Hl).
  assert (X : forall wt, In wt l -> smooth dvars (snd wt) /\ forall v, mentions dvars (snd wt) v <-> V v \/ W v).
  { intros wt Hwt. destruct (Hl wt Hwt) as (i & ti & p & Hi & Hn & _ & -> & Hp). destruct (proxy_scope i p Hi Hp) as [P1 P2].
    destruct (Hts ti) as [T1 T2]; [eapply nth_error_In; eauto|]. split; [cbn [smooth map fold_right]; auto|]. intros v. cbn [mentions map fold_right]. rewrite T2, P2. tauto. }
  assert (Mv : forall v, mentions dvars (PSum l) v <-> V v \/ W v).
  { intros v. cbn [mentions]. rewrite fold_or_Exists, Exists_exists. split.
    - intros (wt & Hwt & Hm). now apply (X wt Hwt).
    - intros Hm. destruct l as [|wt l]; [destruct ts; [contradiction|discriminate]|]. exists wt. split; [now left|]. apply X; [now left|exact Hm]. }
  split; [|exact Mv]. cbn [smooth]. split.
  - intros v Hv. apply Mv in Hv. apply fold_and_Forall. apply Forall_forall. intros wt Hwt. now apply (X wt Hwt).
  - apply fold_and_Forall. apply Forall_forall. intros wt Hwt. now apply X.
Qed.

Lemma mixed_decomposable t : (forall v, V v -> ~ W v) -> Forall (decomposable dvars) ts -> Forall (decomposable dvars) us ->
  mixed_tree c M ts us t -> decomposable dvars t.
Proof.
  intros Hd Dt Du H. destruct (mixed_each t H) as (l & -> & Hlen & Hl). cbn [decomposable]. apply fold_and_Forall. apply Forall_forall. intros wt Hwt.
  destruct (Hl wt Hwt) as (i & ti & p & Hi & Hn & _ & -> & Hp). destruct (proxy_scope i p Hi Hp) as [_ P2]. destruct (Hts ti) as [_ T2]; [eapply nth_error_In; eauto|].
  destruct (proxy_nonempty i p Hi Hp) as (l' & -> & _ & _ & _ & Hin). rewrite Forall_forall in Dt, Du.
  cbn [decomposable map fold_right pairwise_disjoint]. split; [split; [split; [|exact I]|split; exact I]|].
  - intros v [A B]. apply T2 in A. apply P2 in B. exact (Hd v A B).
  - split; [apply Dt; eapply nth_error_In; eauto|]. split; [|exact I]. apply fold_and_Forall. apply Forall_forall. intros wu Hwu. auto.
Qed.
End Values.

Lemma smooth_children {D} (dvars : D -> list nat) ts : smooth dvars (PSum ts) ->
  forall t, In t (map snd ts) -> smooth dvars t /\ forall v, mentions dvars t v <-> mentions dvars (PSum ts) v.
Proof.
  intros [H1 H2] t Ht. apply in_map_iff in Ht. destruct Ht as (wt & <- & Hwt). apply fold_and_Forall in H2. rewrite Forall_forall in H2. split; [now apply H2|].
  intros v. split.
  - intros Hv. cbn [mentions]. apply fold_or_Exists. apply Exists_exists. eauto.
  - intros Hv. apply H1 in Hv. apply fold_and_Forall in Hv. rewrite Forall_forall in Hv. now apply Hv.
Qed.

(** ** The property *)

(** Two mixtures of separate circuits, and unused numbers for new units. *)
Definition mountable (g h : graph dist) (self other : id) (nx : nat) (ts us : list (num * pc dist)) : Prop :=
  layered_circuit g (PSum ts) /\ layered_circuit h (PSum us) /\ root g = Some self /\ root h = Some other /\
  (forall x, In x (node_ids g) -> ~ In x (node_ids h)) /\ (forall x, In x (node_ids g) \/ In x (node_ids h) -> (x < nx)%nat) /\
  smooth dist_vars (PSum ts) /\ smooth dist_vars (PSum us) /\ all_leaves dist_ok (PSum ts) /\ all_leaves dist_ok (PSum us) /\
  all_sums (Forall lw_ok) (PSum ts) /\ all_sums (Forall lw_ok) (PSum us) /\
  (forall v, mentions dist_vars (PSum ts) v -> ~ mentions dist_vars (PSum us) v).

(** The circuit [G] is the two-way mixture: in its densities and in its answers to events. *)
Definition realises (G : graph dist) (ts us : list (num * pc dist)) (M : nat -> nat -> R) : Prop :=
  (forall x a b, values_of (fun t => lik t x) (map snd ts) a -> values_of (fun t => lik t x) (map snd us) b ->
     likelihood_at G x (Fin (table_mix (length ts) (length us) M a b))) /\
  (forall e a b, event_ok (PSum ts) e -> event_ok (PSum us) e ->
     values_of (fun t => Fin (semR (fun d => probR d (e (dvar d))) t)) (map snd ts) a ->
     values_of (fun t => Fin (semR (fun d => probR d (e (dvar d))) t)) (map snd us) b ->
     answers G e (table_mix (length ts) (length us) M a b)).

Definition C37_full : Prop := forall g h self other nx ts us M,
  mountable g h self other nx ts us -> table (length ts) (length us) (fun i => wexp (nth i (map fst ts) NInf)) M ->
  exists G nx', mount_with_interaction_terms dist_vars (fun i => Some (Fin (Rsum (map (M i) (seq 0 (length us)))))) (fun i j => Some (Fin (M i j))) g h self other nx = Some (G, nx') /\
    realises G ts us M.

Lemma children_all {P : pc dist -> Prop} (l : list (num * pc dist)) : fold_right and True (map (fun wt => P (snd wt)) l) -> Forall P (map snd l).
Proof. intros H. apply fold_and_Forall in H. now apply Forall_map. Qed.

(** Every component has a positive probability in the interaction table.  The old weights of the mixture play no role:
    they are overwritten. *)
Theorem C37_interaction_partial g h self other nx ts us c M pcond pquery :
  mountable g h self other nx ts us -> table (length ts) (length us) c M ->
  (forall i, (i < length ts)%nat -> 0 < c i) ->
  (forall i, (i < length ts)%nat -> pcond i = Some (Fin (c i))) ->
  (forall i j, (i < length ts)%nat -> (j < length us)%nat -> pquery i j = Some (Fin (M i j))) ->
  exists G t', mount_with_interaction_terms dist_vars pcond pquery g h self other nx = Some (G, nx + 2 * length ts)%nat /\
    layered_circuit G t' /\ root G = Some self /\ smooth dist_vars t' /\ realises G ts us M /\
    (decomposable dist_vars (PSum ts) -> decomposable dist_vars (PSum us) -> decomposable dist_vars t').
Proof.
  intros (Lg & Lh & Rg & Rh & Ap & Fr & Sg & Sh & Og & Oh & Wg & Wh & Dis) Tab Pos Pc Pq.
  destruct (mount_interaction_tree dist_vars c M pcond pquery g h self other nx ts us Lg Lh Rg Rh Ap Fr Sg Sh Dis) as (G & t & E & LG & RG & Mix & _); auto.
  { intros i j Hi Hj. split; [auto|]. now apply (proj1 Tab). }
  { apply Tab. }
  assert (Pos' : forall i, (i < length (map snd ts))%nat -> 0 < c i) by (intros i; rewrite map_length; apply Pos).
  assert (Tab' : table (length (map snd ts)) (length (map snd us)) c M) by (rewrite !map_length; exact Tab).
  assert (Tne : map snd ts <> []).
  { destruct Lg as (_ & _ & r & _ & _ & U). inversion U as [|? ? _ N F|]; subst. intros X. destruct ts; [|discriminate]. inversion F. congruence. }
  destruct (mixed_scope dist_vars c M _ _ Pos' Tab' _ _ (smooth_children dist_vars ts Sg) (smooth_children dist_vars us Sh) t Tne Mix) as [St Mt].
  exists G, t. split; [exact E|]. split; [exact LG|]. split; [exact RG|]. split; [exact St|]. split; [split|].
  - intros x a b Ha Hb. assert (Lv := mixed_value c M _ _ Pos' (fun d => nexp (ll1 d (x (dvar d)))) a b t Ha Hb Mix). rewrite !map_length in Lv.
    change (semN (fun d => nexp (ll1 d (x (dvar d)))) t) with (lik t x) in Lv. rewrite <- Lv. now apply likelihood_at_lik.
  - intros e a b Eg Eh Ha Hb. destruct Wg as [_ Wg]. destruct Wh as [_ Wh]. cbn [all_leaves] in Og, Oh. apply children_all in Wg, Wh, Og, Oh.
    unfold event_ok in *. cbn [all_leaves] in Eg, Eh. apply children_all in Eg, Eh.
    assert (W' := mixed_sums c M _ _ Pos' Tab' t Wg Wh Mix). assert (O' := mixed_leaves c M _ _ Pos' Tab' dist_ok t Og Oh Mix).
    assert (E' : event_ok t e) by (apply (mixed_leaves c M _ _ Pos' Tab'); auto).
    assert (A := answers_semR G t e LG W' O' E'). set (val := fun d => probR d (e (dvar d))) in *.
    assert (Lv := mixed_value c M (map snd ts) (map snd us) Pos' (fun d => Fin (val d)) a b t). rewrite (semN_semR val t W') in Lv. rewrite !map_length in Lv.
    assert (X : Fin (semR val t) = Fin (table_mix (length ts) (length us) M a b)).
    { apply Lv; [| |exact Mix]; intros i y Hy; rewrite semN_semR; [now apply Ha| |now apply Hb|]; apply nth_error_In in Hy.
      - rewrite Forall_forall in Wg. now apply Wg.
      - rewrite Forall_forall in Wh. now apply Wh. }
    injection X as X. rewrite <- X. exact A.
  - intros Dg Dh. cbn [decomposable] in Dg, Dh. apply children_all in Dg, Dh.
    apply (mixed_decomposable dist_vars c M _ _ Pos' Tab' _ _ (smooth_children dist_vars ts Sg) (smooth_children dist_vars us Sh) t); auto.
Qed.
Print Assumptions C37_interaction_partial.

(** ** Where it fails

    A component whose own weight is zero keeps its old edge.  When it is the first one, the circuit believes to have only
    its variables and cannot be evaluated any more. *)
Definition yes : dist := DSym 0 [(1%Z, 1)].
Definition no : dist := DSym 0 [(0%Z, 1)].
Definition sure : dist := DSym 1 [(1%Z, 1)].
Definition own_g : graph dist := mkGraph [(0, USum); (1, ULeaf yes); (2, ULeaf no)]%nat [mkEdge 0 1 (Some NInf); mkEdge 0 2 (Some (Fin 0))]%nat.
Definition own_l : list (num * pc dist) := [(NInf, PLeaf yes); (Fin 0, PLeaf no)].
Definition other_g : graph dist := mkGraph [(3, USum); (4, ULeaf sure)]%nat [mkEdge 3 4 (Some (Fin 0))]%nat.
Definition other_l : list (num * pc dist) := [(Fin 0, PLeaf sure)].

Lemma own_layered : layered_circuit own_g (PSum own_l).
Proof.
  split; [|split].
  - constructor; cbn.
    + repeat constructor; cbn; intuition lia.
    + repeat constructor; cbn; intuition congruence.
    + intros e H. repeat destruct H as [<-|H]; cbn; tauto.
    + intros e H. repeat destruct H as [<-|H]; cbn; tauto.
  - intros e d H. repeat destruct H as [<-|H]; cbn; try discriminate. destruct H.
  - exists 0%nat. split; [reflexivity|]. split.
    + exists (fun u => if u =? 0 then 0 else 1)%nat. split; [reflexivity|].
      intros e H _. repeat destruct H as [<-|H]; cbn; try reflexivity. destruct H.
    + unfold own_l. unf.
Qed.

Lemma other_layered : layered_circuit other_g (PSum other_l).
Proof.
  split; [|split].
  - constructor; cbn.
    + repeat constructor; cbn; intuition lia.
    + repeat constructor; cbn; intuition congruence.
    + intros e H. repeat destruct H as [<-|H]; cbn; tauto.
    + intros e H. repeat destruct H as [<-|H]; cbn; tauto.
  - intros e d H. repeat destruct H as [<-|H]; cbn; try discriminate. destruct H.
  - exists 3%nat. split; [reflexivity|]. split.
    + exists (fun u => if u =? 3 then 0 else 1)%nat. split; [reflexivity|].
      intros e H _. repeat destruct H as [<-|H]; cbn; try reflexivity. destruct H.
    + unfold other_l. unf.
Qed.

Lemma point_ok v k : dist_ok (DSym v [(k, 1)]).
Proof. split; [split|]; [|repeat constructor; simpl; lra|simpl; lra]. repeat constructor; simpl; intuition discriminate. Qed.

Lemma sym_point v k x : nexp (ll1 (DSym v [(k, 1)]) x) = Fin (ind (Reqb x (IZR k))).
Proof. cbn [ll1 fold_left fst snd]. destruct (Reqb x (IZR k)); [rewrite nexp_nlog by (cbn; lra); reflexivity|reflexivity]. Qed.

Lemma own_mountable : mountable own_g other_g 0%nat 3%nat 5%nat own_l other_l.
Proof.
  split; [exact own_layered|]. split; [exact other_layered|]. split; [reflexivity|]. split; [reflexivity|].
  split; [intros x [<-|[<-|[<-|[]]]]; cbn; intuition lia|]. split; [intros x; cbn; intuition lia|].
  split; [split; [intros v [H|[H|[]]]; repeat split; exact H|repeat split]|].
  split; [split; [intros v [H|[]]; repeat split; exact H|repeat split]|].
  split; [split; [apply point_ok|split; [apply point_ok|exact I]]|]. split; [split; [apply point_ok|exact I]|].
  split; [split; [repeat constructor|repeat split]|]. split; [split; [repeat constructor|repeat split]|].
  intros v [[<-|[]]|[[<-|[]]|[]]] [[H|[]]|[]]; discriminate.
Qed.

Definition zero_row (i j : nat) : R := match i with O => 0 | _ => 1 end.

Theorem C37_refuted : ~ C37_full.
Proof.
  intros H. destruct (H own_g other_g 0%nat 3%nat 5%nat own_l other_l zero_row own_mountable) as (G & nx' & E & HR & _).
  { split; [intros [|[|i]] j Hi Hj; cbn; lra|]. intros [|[|i]] Hi; cbn in *; [lra|rewrite exp_0; lra|lia]. }
  destruct (HR (fun _ => 0) (fun i => match i with O => 0 | _ => 1 end) (fun _ => 0)) with (st := @empty_store num) as (vars & ll & st' & Hv & Hl & _).
  { intros [|[|i]] t Ht; cbn in Ht; try injection Ht as <-; try (destruct i; discriminate); unfold lik; cbn [semN].
    - unfold yes. rewrite sym_point. destruct (Reqb_spec 0 (IZR 1)); [lra|reflexivity].
    - unfold no. rewrite sym_point. destruct (Reqb_spec 0 (IZR 0)); [reflexivity|lra]. }
  { intros [|i] t Ht; cbn in Ht; try injection Ht as <-; try (destruct i; discriminate). unfold lik; cbn [semN].
    unfold sure. rewrite sym_point. destruct (Reqb_spec 0 (IZR 1)); [lra|reflexivity]. }
  assert (Z0 : Rsum (map (zero_row 0) (seq 0 (length other_l))) = 0) by (cbn; lra).
  assert (Z1 : Rsum (map (zero_row 1) (seq 0 (length other_l))) = 1) by (cbn; lra).
  assert (R0 : Reqb 0 0 = true) by (destruct (Reqb_spec 0 0); [reflexivity|lra]). assert (R1 : Reqb 1 0 = false) by (destruct (Reqb_spec 1 0); [lra|reflexivity]).
  unfold mount_with_interaction_terms in E. change (unit_variables dist_vars own_g (S (length (g_nodes own_g))) 0%nat) with (Some [0%nat]) in E.
  change (unit_variables dist_vars other_g (S (length (g_nodes other_g))) 3%nat) with (Some [1%nat]) in E.
  change (subcircuits own_g 0%nat) with [1; 2]%nat in E. change (subcircuits other_g 3%nat) with [4]%nat in E. cbn [existsb Nat.eqb orb enumerate foldM] in E.
  unfold mount_own at 1 in E. cbn [fst snd] in E. rewrite Z0 in E. cbn [is_zero] in E. rewrite R0 in E. unfold mount_own in E. cbn [fst snd] in E. rewrite Z1 in E. cbn [is_zero] in E. rewrite R1 in E.
  unfold mount_other in E. cbn [fst snd enumerate foldM zero_row is_zero] in E. rewrite R1 in E. 
  clear HR Z0 Z1 R0 R1. revert E. generalize (nlog (Fin 1)) (nlog (ndiv (Fin 1) (Fin 1))). intros w1 w2 E.
  cbn -[nsub logsumexp] in E. injection E as EG _. subst G. 
  assert (Ev : vars = [0%nat]) by (cbn -[nsub logsumexp] in Hv; congruence). subst vars.
  unfold log_likelihood in Hl. rewrite Hv in Hl. cbn -[nsub logsumexp] in Hl. discriminate Hl.
Qed.
Print Assumptions C37_refuted.

(** ** Cases *)
Definition pair_g : graph dist := mkGraph [(0, USum); (1, ULeaf yes); (2, ULeaf no)]%nat
  [mkEdge 0 1 (Some (nlog (Fin (1/4)))); mkEdge 0 2 (Some (nlog (Fin (3/4))))]%nat.
Definition pair_l : list (num * pc dist) := [(nlog (Fin (1/4)), PLeaf yes); (nlog (Fin (3/4)), PLeaf no)].
Definition sure0 : dist := DSym 1 [(0%Z, 1)].
Definition pair_h : graph dist := mkGraph [(3, USum); (4, ULeaf sure); (5, ULeaf sure0)]%nat
  [mkEdge 3 4 (Some (nlog (Fin (1/2)))); mkEdge 3 5 (Some (nlog (Fin (1/2))))]%nat.
Definition pair_k : list (num * pc dist) := [(nlog (Fin (1/2)), PLeaf sure); (nlog (Fin (1/2)), PLeaf sure0)].

Lemma pair_layered : layered_circuit pair_g (PSum pair_l) /\ layered_circuit pair_h (PSum pair_k).
Proof.
  split; (split; [|split]).
  - constructor; cbn -[nlog].
    + repeat constructor; cbn; intuition lia.
    + repeat constructor; cbn; intuition congruence.
    + intros e H. repeat destruct H as [<-|H]; cbn; tauto.
    + intros e H. repeat destruct H as [<-|H]; cbn; tauto.
  - intros e d H. repeat destruct H as [<-|H]; cbn; try discriminate. destruct H.
  - exists 0%nat. split; [reflexivity|]. split.
    + exists (fun u => if u =? 0 then 0 else 1)%nat. split; [reflexivity|].
      intros e H _. repeat destruct H as [<-|H]; cbn; try reflexivity. destruct H.
    + unfold pair_l. unf.
  - constructor; cbn -[nlog].
    + repeat constructor; cbn; intuition lia.
    + repeat constructor; cbn; intuition congruence.
    + intros e H. repeat destruct H as [<-|H]; cbn; tauto.
    + intros e H. repeat destruct H as [<-|H]; cbn; tauto.
  - intros e d H. repeat destruct H as [<-|H]; cbn; try discriminate. destruct H.
  - exists 3%nat. split; [reflexivity|]. split.
    + exists (fun u => if u =? 3 then 0 else 1)%nat. split; [reflexivity|].
      intros e H _. repeat destruct H as [<-|H]; cbn; try reflexivity. destruct H.
    + unfold pair_k. unf.
Qed.

Lemma pair_mountable : mountable pair_g pair_h 0%nat 3%nat 6%nat pair_l pair_k.
Proof.
  split; [apply pair_layered|]. split; [apply pair_layered|]. split; [reflexivity|]. split; [reflexivity|].
  split; [intros x [<-|[<-|[<-|[]]]]; cbn; intuition lia|]. split; [intros x; cbn; intuition lia|].
  split; [split; [intros v [H|[H|[]]]; repeat split; exact H|repeat split]|].
  split; [split; [intros v [H|[H|[]]]; repeat split; exact H|repeat split]|].
  split; [split; [apply point_ok|split; [apply point_ok|exact I]]|]. split; [split; [apply point_ok|split; [apply point_ok|exact I]]|].
  split; [split; [repeat constructor; apply wexp_nlog; lra|repeat split]|]. split; [split; [repeat constructor; apply wexp_nlog; lra|repeat split]|].
  intros v [[<-|[]]|[[<-|[]]|[]]] [[H|[]]|[[H|[]]|[]]]; discriminate.
Qed.

(** The table [[1/4, 0], [1/4, 1/2]]: one impossible combination. *)
Definition some_table (i j : nat) : R := match i, j with O, O => 1/4 | O, _ => 0 | _, O => 1/4 | _, _ => 1/2 end.

Example C37_case : exists G t', mount_with_interaction_terms dist_vars (fun i => Some (Fin (match i with O => 1/4 | _ => 3/4 end)))
    (fun i j => Some (Fin (some_table i j))) pair_g pair_h 0%nat 3%nat 6%nat = Some (G, 10%nat) /\ layered_circuit G t' /\
  likelihood_at G (fun _ => 0) (Fin (1/2)).
Proof.
  destruct (C37_interaction_partial pair_g pair_h 0%nat 3%nat 6%nat pair_l pair_k (fun i => match i with O => 1/4 | _ => 3/4 end) some_table
    (fun i => Some (Fin (match i with O => 1/4 | _ => 3/4 end))) (fun i j => Some (Fin (some_table i j))) pair_mountable) as (G & t' & E & L & _ & _ & (R1 & _) & _).
  - split; [intros [|i] [|j] _ _; cbn; lra|]. intros [|i] _; cbn; lra.
  - intros [|i] _; lra.
  - reflexivity.
  - reflexivity.
  - exists G, t'. split; [exact E|]. split; [exact L|].
    assert (Y : Reqb 0 (IZR 1) = false) by (destruct (Reqb_spec 0 (IZR 1)); [lra|reflexivity]). assert (N : Reqb 0 (IZR 0) = true) by (destruct (Reqb_spec 0 (IZR 0)); [reflexivity|lra]).
    replace (1/2) with (table_mix 2 2 some_table (fun i => match i with O => 0 | _ => 1 end) (fun j => match j with O => 0 | _ => 1 end)) by (unfold table_mix, some_table; cbn; lra).
    apply (R1 (fun _ => 0)).
    + intros [|[|i]] t Ht; cbn in Ht; try injection Ht as <-; try (destruct i; discriminate); unfold lik; cbn [semN]; unfold yes, no; rewrite sym_point; rewrite ?Y, ?N; reflexivity.
    + intros [|[|i]] t Ht; cbn in Ht; try injection Ht as <-; try (destruct i; discriminate); unfold lik; cbn [semN]; unfold sure, sure0; rewrite sym_point; rewrite ?Y, ?N; reflexivity.
Qed.
