(** * EqFacts: what [==] and the decomposability checks decide

    Specification of "same shape" first, proofs after it. *)
From Coq Require Import List Arith Bool Lia Reals ZArith.
From Verif Require Import Num Graph GraphFacts Spec SpecFacts Circuit EvalFacts VarFacts Rename Copy.
Import ListNotations.
Local Open Scope nat_scope.

(** Two trees of the same shape: the same kinds of units in the same places, the same log weights, leaves of the same
    class.  What distributions the leaves hold does not matter. *)
Fixpoint same_shape {D} (lclass : D -> nat) (t t' : pc D) {struct t} : Prop :=
  match t, t' with
  | PLeaf d, PLeaf d' => lclass d = lclass d'
  | PSum l, PSum l' =>
      (fix go (l l' : list (num * pc D)) : Prop :=
         match l, l' with
         | [], [] => True
         | (w, s) :: m, (w', s') :: m' => w = w' /\ same_shape lclass s s' /\ go m m'
         | _, _ => False
         end) l l'
  | PProd l, PProd l' =>
      (fix go (l l' : list (pc D)) : Prop :=
         match l, l' with
         | [], [] => True
         | s :: m, s' :: m' => same_shape lclass s s' /\ go m m'
         | _, _ => False
         end) l l'
  | _, _ => False
  end.

(** The distributions of the leaves from left to right. *)
Fixpoint leaf_list {D} (t : pc D) : list D :=
  match t with
  | PLeaf d => [d]
  | PSum l => flat_map (fun wt => leaf_list (snd wt)) l
  | PProd l => flat_map leaf_list l
  end.

Section Facts.
Context {D : Type} (lclass : D -> nat).

Lemma same_shape_len t : forall t', same_shape lclass t t' ->
  List.length (leaf_list t) = List.length (leaf_list t').
Proof.
  induction t as [d|l IH|l IH] using pc_ind'; intros [d'|l'|l'] H; cbn [same_shape] in H; try contradiction; [reflexivity| |].
  - revert l' H. induction IH as [|[w s] m Hs _ IHm]; intros [|[w' s'] m'] H; try contradiction; [reflexivity|].
    destruct H as (_ & H1 & H2). cbn [leaf_list flat_map snd]. rewrite !app_length.
    f_equal; [exact (Hs s' H1)|exact (IHm m' H2)].
  - revert l' H. induction IH as [|s m Hs _ IHm]; intros [|s' m'] H; try contradiction; [reflexivity|].
    destruct H as (H1 & H2). cbn [leaf_list flat_map]. rewrite !app_length.
    f_equal; [exact (Hs s' H1)|exact (IHm m' H2)].
Qed.

Lemma app_split {A} (a b c d : list A) : a ++ b = c ++ d -> List.length a = List.length c -> a = c /\ b = d.
Proof.
  revert c. induction a as [|x a IH]; intros [|y c] H L; try discriminate; [auto|].
  cbn [app] in H. injection H as -> H. injection L as L. destruct (IH c H L) as [-> ->]. auto.
Qed.

Lemma same_shape_eq t : forall t', same_shape lclass t t' -> leaf_list t = leaf_list t' -> t = t'.
Proof.
  induction t as [d|l IH|l IH] using pc_ind'; intros [d'|l'|l'] H E; cbn [same_shape] in H; try contradiction.
  - cbn in E. congruence.
  - f_equal. revert l' H E. induction IH as [|[w s] m Hs _ IHm]; intros [|[w' s'] m'] H E; try contradiction; [reflexivity|].
    destruct H as (-> & H1 & H2). cbn [leaf_list flat_map snd] in E.
    apply app_split in E; [|exact (same_shape_len s s' H1)]. destruct E as [E1 E2].
    f_equal; [f_equal; exact (Hs s' H1 E1)|exact (IHm m' H2 E2)].
  - f_equal. revert l' H E. induction IH as [|s m Hs _ IHm]; intros [|s' m'] H E; try contradiction; [reflexivity|].
    destruct H as (H1 & H2). cbn [leaf_list flat_map] in E.
    apply app_split in E; [|exact (same_shape_len s s' H1)]. destruct E as [E1 E2].
    rewrite (Hs s' H1 E1). f_equal. exact (IHm m' H2 E2).
Qed.

Lemma num_eqb_spec a b : num_eqb a b = true <-> a = b.
Proof.
  destruct a as [| |x|], b as [| |y|]; cbn; try (split; [discriminate|congruence]); try tauto; try (split; congruence).
  destruct (Req_EM_T x y) as [->|N]; split; intros H; try reflexivity; try discriminate; congruence.
Qed.

Lemma lws_spec (g : graph D) u ts : 
  Forall2 (fun e wt => e_lw e = Some (fst wt) /\ unfolds g (e_dst e) (snd wt)) (out_edges g u) ts ->
  exists l, lws g u = Some l /\ Forall2 (fun wc (wt : num * pc D) => fst wc = fst wt /\ unfolds g (snd wc) (snd wt)) l ts.
Proof.
  unfold lws. intros H. induction H as [|e wt es ts [H1 H2] _ (l & E & F)].
  - exists []. split; [reflexivity|constructor].
  - exists ((fst wt, e_dst e) :: l). split; [|constructor; [split; [reflexivity|exact H2]|exact F]].
    unfold mapM in *. rewrite H1, E. reflexivity.
Qed.

Lemma Forall2_len {A B} (P : A -> B -> Prop) l m : Forall2 P l m -> List.length l = List.length m.
Proof. induction 1; simpl; congruence. Qed.

(** [==] is exactly sameness of shape. *)
Lemma unit_eq_spec (ga gb : graph D) t : forall u, unfolds ga u t ->
  forall v t', unfolds gb v t' -> forall fuel, height t <= fuel ->
  exists b, unit_eq lclass fuel ga gb u v = Some b /\ (b = true <-> same_shape lclass t t').
Proof.
  induction t as [d|l IH|l IH] using pc_ind'; intros u U v t' U' [|f] Hf; try (simpl in Hf; lia); cbn [unit_eq];
    inversion U as [u1 d1 Hk|u1 ts1 Hk Hne HF|u1 ts1 Hk HF]; subst; rewrite Hk;
    destruct U' as [v d' Hk'|v l' Hk' _ HF'|v l' Hk' HF']; rewrite Hk';
    try (exists false; split; [reflexivity|]; cbn; split; [discriminate|tauto]).
  - eexists. split; [reflexivity|]. cbn [same_shape]. apply Nat.eqb_eq.
  - destruct (lws_spec ga u l HF) as (m & -> & Fm). destruct (lws_spec gb v l' HF') as (m' & -> & Fm').
    assert (Hm : forall wt, In wt l -> height (snd wt) <= f).
    { intros wt Hin. cbn [height] in Hf. pose proof (fold_max_In _ _ (in_map (fun wt => height (snd wt)) l wt Hin)) as X.
      cbv beta in X. lia. }
    clear - IH Fm Fm' Hm. revert l' m m' Fm Fm'.
    induction IH as [|[w s] l Hs _ IHl]; intros l' m m' Fm Fm'.
    + inversion Fm; subst. destruct Fm' as [|a b m' l' _ _].
      * exists true. split; [reflexivity|]. cbn. tauto.
      * exists false. split; [reflexivity|]. cbn. split; [discriminate|tauto].
    + inversion Fm as [|[wc c] wt m1 l1 [E1 E2] Fm1]; subst. cbn [fst snd] in *. subst wc.
      destruct Fm' as [|[wc' c'] [w' s'] m' l' [E1' E2'] Fm1'].
      * exists false. split; [reflexivity|]. cbn. split; [discriminate|tauto].
      * cbn [fst snd] in *. subst wc'.
        destruct (IHl (fun wt H => Hm wt (or_intror H)) l' m1 m' Fm1 Fm1') as (b & Eb & Sb).
        destruct (Hs c E2 c' s' E2' f (Hm (w, s) (or_introl eq_refl))) as (b' & Eb' & Sb').
        cbn [List.length Nat.eqb]. rewrite Eb'.
        destruct (List.length m1 =? List.length m') eqn:EL.
        -- destruct (num_eqb w w') eqn:EW.
           ++ destruct b'.
              ** exists b. split; [exact Eb|]. rewrite Sb. cbn [same_shape]. apply num_eqb_spec in EW. split.
                 --- intros H. split; [exact EW|]. split; [now apply Sb'|exact H].
                 --- intros (_ & _ & H). exact H.
              ** exists false. split; [reflexivity|]. split; [discriminate|]. intros (_ & H & _). apply Sb' in H. exact H.
           ++ exists false. split; [reflexivity|]. split; [discriminate|]. intros (H & _).
              apply num_eqb_spec in H. congruence.
        -- exists false. split; [reflexivity|]. split; [discriminate|]. intros (_ & _ & H).
           change (same_shape lclass (PSum l) (PSum l')) in H. exfalso. injection Eb as <-. apply Sb in H. discriminate.
  - assert (Hm : forall t, In t l -> height t <= f).
    { intros t Hin. cbn [height] in Hf. pose proof (fold_max_In _ _ (in_map height l t Hin)) as X. lia. }
    assert (Fm : Forall2 (fun c t => unfolds ga c t) (subcircuits ga u) l).
    { unfold subcircuits. clear - HF. induction HF; cbn [map]; constructor; auto. }
    assert (Fm' : Forall2 (fun c t => unfolds gb c t) (subcircuits gb v) l').
    { unfold subcircuits. clear - HF'. induction HF'; cbn [map]; constructor; auto. }
    revert Fm Fm'. generalize (subcircuits ga u) (subcircuits gb v). clear - IH Hm. revert l'. unfold py_list_eq.
    induction IH as [|s l Hs _ IHl]; intros l' m m' Fm Fm'.
    + inversion Fm; subst. destruct Fm' as [|a b m' l' _ _].
      * exists true. split; [reflexivity|]. cbn. tauto.
      * exists false. split; [reflexivity|]. cbn. split; [discriminate|tauto].
    + inversion Fm as [|c wt m1 l1 E2 Fm1]; subst.
      destruct Fm' as [|c' s' m' l' E2' Fm1'].
      * exists false. split; [reflexivity|]. cbn. split; [discriminate|tauto].
      * destruct (IHl (fun wt H => Hm wt (or_intror H)) l' m1 m' Fm1 Fm1') as (b & Eb & Sb).
        destruct (Hs c E2 c' s' E2' f (Hm s (or_introl eq_refl))) as (b' & Eb' & Sb').
        cbn [List.length Nat.eqb list_eq]. rewrite Eb'.
        destruct (List.length m1 =? List.length m') eqn:EL.
        -- destruct b'.
           ++ exists b. split; [exact Eb|]. rewrite Sb. cbn [same_shape]. split.
              ** intros H. split; [now apply Sb'|exact H].
              ** intros (_ & H). exact H.
           ++ exists false. split; [reflexivity|]. split; [discriminate|]. intros (H & _). apply Sb' in H. exact H.
        -- exists false. split; [reflexivity|]. split; [discriminate|]. intros (_ & H).
           change (same_shape lclass (PProd l) (PProd l')) in H. exfalso. injection Eb as <-. apply Sb in H. discriminate.
Qed.

Lemma circuit_eq_spec (ga gb : graph D) ra rb ta tb : root ga = Some ra -> root gb = Some rb ->
  unfolds ga ra ta -> unfolds gb rb tb ->
  exists b, circuit_eq lclass ga gb = Some b /\ (b = true <-> same_shape lclass ta tb).
Proof.
  intros Ra Rb Ua Ub. unfold circuit_eq. rewrite Ra, Rb. apply unit_eq_spec; auto.
  pose proof (height_bound ga ra ta Ua). lia.
Qed.

(** ** Decomposability *)

Lemma disjoint_later_spec vss : disjoint_later vss = true <-> pairwise_disjoint (map (fun vs v => In v vs) vss).
Proof.
  induction vss as [|vs vss IH]; cbn [disjoint_later map pairwise_disjoint]; [tauto|].
  rewrite andb_true_iff, IH, forallb_forall. rewrite fold_and_Forall, Forall_map, Forall_forall.
  split; intros [H1 H2]; (split; [|exact H2]).
  - intros ws Hws v [Hv Hw]. specialize (H1 ws Hws). apply negb_true_iff in H1.
    assert (T : existsb (fun w => existsb (Nat.eqb w) vs) ws = true).
    { apply existsb_exists. exists v. split; [exact Hw|]. apply existsb_exists. exists v. split; [exact Hv|apply Nat.eqb_refl]. }
    congruence.
  - intros ws Hws. apply negb_true_iff, not_true_is_false. intros T. apply existsb_exists in T.
    destruct T as (w & Hw & T). apply existsb_exists in T. destruct T as (v & Hv & T). apply Nat.eqb_eq in T. subst w.
    exact (H1 ws Hws v (conj Hv Hw)).
Qed.

Lemma pairwise_disjoint_ext (l m : list (nat -> Prop)) : Forall2 (fun p q => forall v, p v <-> q v) l m ->
  pairwise_disjoint l -> pairwise_disjoint m.
Proof.
  intros F. induction F as [|p q l m H F IH]; [auto|]. cbn [pairwise_disjoint]. intros [H1 H2]. split; [|auto].
  apply fold_and_Forall in H1. apply fold_and_Forall. clear - H H1 F.
  induction F as [|a b l m Hab F IH]; [constructor|]. inversion H1 as [|x y X1 X2]; subst. constructor; [|auto].
  intros v [V1 V2]. apply (X1 v). split; [now apply H|now apply Hab].
Qed.

(** [ProductUnit.is_decomposable] answers the question for the unit itself. *)
Lemma product_check (dvars : D -> list nat) (g : graph D) u ts :
  unfolds g u (PProd ts) -> smooth dvars (PProd ts) ->
  exists b, product_is_decomposable dvars g u = Some b /\
    (b = true <-> pairwise_disjoint (map (fun t' => mentions dvars t') ts)).
Proof.
  intros U Sm. inversion U as [| |u1 ts1 Hk HF]; subst. unfold product_is_decomposable.
  assert (X : exists vss, mapM (unit_variables dvars g (S (List.length (g_nodes g)))) (subcircuits g u) = Some vss /\
     Forall2 (fun vs t => forall v, In v vs <-> mentions dvars t v) vss ts).
  { cbn [smooth] in Sm. apply fold_and_Forall in Sm. unfold subcircuits.
    clear - Sm HF. induction HF as [|e t es ts H _ IH]; [exists []; split; [reflexivity|constructor]|].
    inversion Sm as [|x y S1 S2]; subst. destruct (IH S2) as (vss & E & F).
    destruct (unit_variables_spec dvars g _ t H S1 (Datatypes.S (List.length (g_nodes g)))) as (vs & Ev & _ & Hv).
    { pose proof (height_bound g _ t H). lia. }
    exists (vs :: vss). split; [|constructor; auto]. cbn [map]. unfold mapM in *. rewrite Ev, E. reflexivity. }
  destruct X as (vss & -> & F). exists (disjoint_later vss). split; [reflexivity|]. rewrite disjoint_later_spec.
  split; apply pairwise_disjoint_ext; clear - F; induction F; cbn [map]; constructor; auto.
  intros v. symmetry. auto.
Qed.

(** The circuit-level check filters the leaves for product units: nothing is left to check. *)
Lemma leaves_no_products (g : graph D) ls : circuit_leaves g = Some ls ->
  filter (fun u => match node_kind g u with Some UProd => true | _ => false end) ls = [].
Proof.
  unfold circuit_leaves. intros H.
  assert (G : forall l, filter (fun u => match node_kind g u with Some UProd => true | _ => false end)
    (filter (fun u => match node_kind g u with Some (ULeaf _) => true | _ => false end) l) = []).
  { induction l as [|u l IH]; [reflexivity|]. cbn [filter]. destruct (node_kind g u) as [[d| |]|] eqn:E; try exact IH.
    cbn [filter]. now rewrite E. }
  destruct (root g) as [r|]; [|discriminate].
  destruct (node_kind g r) as [[d| |]|]; [injection H as <-; reflexivity| | |];
    (destruct (reachable_list g r) as [rs|]; [|discriminate]; injection H as <-; apply G).
Qed.
End Facts.
