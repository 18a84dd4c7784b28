(** * JptMarginalFacts: the simplified marginal over one variable has no product units *)
From Coq Require Import List Arith Bool Lia Reals Lra Permutation Sorting.Sorted.
From Verif Require Import Num Graph GraphFacts Spec SpecFacts Circuit EvalFacts Simplify SimplifyFacts TreeProb TreeLocal Restrict MarginalFacts Settled.
Import ListNotations.
Local Set Bullet Behavior "Strict Subproofs".

(** ** Product units with one child disappear *)
Section Gone.
Context {D : Type}.
Implicit Types g : graph D.

Definition Lone : local (D := D) := fun _ k l => match k with UProd => length l = 1 | _ => True end.

Lemma Lone_closed : closed Lone.
Proof.
  constructor.
  - intros u [d| |] l l' HP H; auto. cbn in *. now rewrite <- (Permutation_length HP).
  - intros s ks e p [d| |] e0 rest _ _ _ H; auto.
  - intros. exact I.
Qed.

Lemma removed g u h : remove_node g u = Some h -> ~ In u (node_ids h).
Proof. unfold remove_node. destruct (has_node g u); [|discriminate]. intros E. injection E as <-. rewrite drop_node_ids. tauto. Qed.

Variable pos : id -> nat.
Variable dead : D -> bool.

Lemma products_gone rest : forall g r, tinv pos g r -> alive dead g -> holds Lone g ->
  StronglySorted (fun a b => pos a < pos b) rest -> (forall u, In u rest -> In u (node_ids g)) ->
  (forall g' , foldM (unit_simplify dead) rest g = Some g' ->
     (forall x, In x (node_ids g') -> In x (node_ids g)) /\ (forall x, In x (node_ids g') -> node_kind g' x = node_kind g x) /\
     forall u, In u rest -> node_kind g' u <> Some UProd).
Proof.
  induction rest as [|u rest IH]; intros g r Ht Ha Hh Hs Hin g' E; cbn [foldM] in E.
  - injection E as <-. split; [auto|]. split; [auto|]. intros u [].
  - inversion Hs as [|? ? Hs' Hf]; subst. rewrite Forall_forall in Hf.
    destruct (unit_simplify_step pos dead g r u Ht Ha) as [g1 [r1 [H1 [H2 [[S1 S2 S3 S4] _]]]]]; [apply Hin; now left|]. rewrite H1 in E.
    destruct (IH g1 r1 H2) with (g' := g') as (A1 & A2 & A3); auto.
    + intros v d Hv. apply (Ha v d). rewrite <- S2; auto. now apply node_kind_ids in Hv.
    + apply S4; [exact Lone_closed|exact Hh].
    + intros v Hv. apply S3; auto. apply Hin. now right.
    + split; [auto|]. split.
      * intros x Hx. rewrite A2, S2; auto.
      * intros v [<-|Hv]; [|auto]. intros Hk. assert (Hu := node_kind_ids _ _ _ Hk).
        assert (Hk0 : node_kind g u = Some UProd) by (rewrite <- S2, <- A2; auto).
        assert (Ho := Hh u UProd Hk0). cbn in Ho. unfold unit_simplify in H1. rewrite Hk0 in H1. unfold prod_simplify, subcircuits in H1.
        destruct (out_edges g u) as [|e [|e' l]]; try discriminate Ho. cbn [map] in H1. apply removed in H1. auto.
Qed.
End Gone.

Section Thin.
Context {D : Type}.
Implicit Types g : graph D.

Theorem simplify_no_products (dead : D -> bool) g r t : tree_circuit g r t -> all_leaves (fun d => dead d = false) t -> holds Lone g ->
  forall g', simplify dead g = Some g' -> forall u, node_kind g' u <> Some UProd.
Proof.
  intros H Ha Hh g' E u Hk. destruct (tree_tinv g r (tc_tree _ _ _ H) (tc_leaf _ _ _ H) (tc_sum _ _ _ H) (tc_w _ _ _ H)) as [p [order [Hb [Ht [Hs [Ho Hr]]]]]].
  unfold simplify in E. rewrite Hb in E.
  destruct (products_gone p dead order g r Ht (tc_alive _ _ _ _ H Ha) Hh Hs (fun v => proj1 (Ho v)) g' E) as (A1 & _ & A3).
  apply (A3 u); auto. apply Ho, A1. eapply node_kind_ids; eauto.
Qed.

(** Every product unit has exactly one child. *)
Fixpoint thin (t : pc D) : Prop :=
  match t with
  | PLeaf _ => True
  | PSum l => fold_right and True (map (fun wt => thin (snd wt)) l)
  | PProd l => length l = 1 /\ fold_right and True (map thin l)
  end.

Lemma hered_thin : hereditary thin.
Proof. split; cbn [thin]; intros l; rewrite ?fold_and_Forall; tauto. Qed.

Lemma thin_units g r t : tree_circuit g r t -> thin t -> holds Lone g.
Proof.
  intros H Ht u k Hk. destruct k as [d| |]; cbn; auto. destruct (tc_units thin g r t H hered_thin Ht u) as (t0 & Hu & Ht0); [eapply node_kind_ids; eauto|].
  inversion Hu as [? ? K|? ? K|? ts K HF]; subst; try congruence. cbn [thin] in Ht0. rewrite (Forall2_length_eq _ _ _ HF). apply Ht0.
Qed.

(** Below a decomposable product at most one child mentions a given variable, so pruning to one variable leaves thin trees. *)
Variable kp : D -> bool.
Variable dvars : D -> list nat.
Variable vs : list nat.
Variable v : nat.

Lemma one_survivor l : Forall (all_leaves (uni kp dvars vs)) l -> pairwise_disjoint (map (mentions dvars) l) ->
  (forall t w, In t l -> In w vs -> mentions dvars t w -> w = v) -> existsb (survives kp) l = true ->
  length (flat_map (fun t => if survives kp t then [prune (survives kp) t] else []) l) = 1.
Proof.
  induction l as [|a l IH]; intros Hu Hp Hv He; [discriminate|]. cbn [map pairwise_disjoint] in Hp. destruct Hp as [Hp1 Hp2]. inversion Hu as [|? ? U1 U2]; subst.
  cbn [flat_map existsb] in *. rewrite app_length. destruct (survives kp a) eqn:Ea.
  - cbn [length]. replace (flat_map _ l) with (@nil (pc D)); [reflexivity|]. symmetry.
    assert (Hno : forall b, In b l -> survives kp b = false).
    { intros b Hb. apply not_true_iff_false. intros Eb. apply (survives_iff kp dvars vs a U1) in Ea. rewrite Forall_forall in U2. apply (survives_iff kp dvars vs b (U2 b Hb)) in Eb.
      destruct Ea as (x & Hx & Mx), Eb as (y & Hy & My). assert (x = v) by (apply (Hv a); [now left|auto|auto]). assert (y = v) by (apply (Hv b); [now right|auto|auto]). subst.
      apply fold_and_Forall in Hp1. rewrite Forall_map, Forall_forall in Hp1. apply (Hp1 b Hb v). auto. }
    clear -Hno. induction l as [|b l IH]; cbn [flat_map]; auto. rewrite (Hno b) by now left. cbn [app]. apply IH. intros c Hc. apply Hno. now right.
  - cbn [length Nat.add]. apply IH; auto. intros t w Ht. apply Hv. now right.
Qed.

Lemma prune_thin t : all_leaves (uni kp dvars vs) t -> decomposable dvars t -> (forall w, In w vs -> mentions dvars t w -> w = v) ->
  survives kp t = true -> thin (prune (survives kp) t).
Proof.
  induction t as [d|l IH|l IH] using pc_ind'; cbn [all_leaves decomposable survives prune thin]; intros Hu Hd Hv Hs; auto.
  - rewrite fold_and_Forall in *. apply Forall_flat_map. rewrite Forall_forall in *. intros wt Hin. destruct (survives kp (snd wt)) eqn:E; repeat constructor. cbn [snd].
    apply IH; auto. intros w Hw Hm. apply Hv; auto. cbn [mentions]. apply fold_or_Exists, Exists_exists. eauto.
  - rewrite fold_and_Forall in *. destruct Hd as [Hp Hd]. assert (Hv' : forall t w, In t l -> In w vs -> mentions dvars t w -> w = v).
    { intros t w Hin Hw Hm. apply Hv; auto. cbn [mentions]. apply fold_or_Exists, Exists_exists. eauto. }
    split; [now apply one_survivor|]. rewrite ?fold_and_Forall in *. apply Forall_flat_map. rewrite Forall_forall in *. intros t Hin. destruct (survives kp t) eqn:E; repeat constructor. apply IH; eauto.
Qed.

Variable dmarg : list nat -> D -> option D.
Hypothesis Hdm : forall d, dmarg vs d = if kp d then Some d else None.

Theorem marginal_no_products (dead : D -> bool) g r t g' : tree_circuit g r t -> all_leaves (fun d => dead d = false) t -> all_leaves (uni kp dvars vs) t -> decomposable dvars t ->
  (forall w, In w vs -> mentions dvars t w -> w = v) -> survives kp t = true ->
  marginal_in_place dead dmarg vs g = Some (Some g') -> forall u, node_kind g' u <> Some UProd.
Proof.
  intros H Ha Hu Hd Hv Hs E. destruct (marginal_pruned kp dead dmarg vs Hdm g r t H Hs) as (g1 & H1 & E1). rewrite E1 in E.
  destruct (simplify dead g1) as [g3|] eqn:E3; [|discriminate]. injection E as ->.
  eapply simplify_no_products; [exact H1|exact (prune_leaves (survives kp) _ t Ha)| |exact E3]. eapply thin_units; [exact H1|]. now apply prune_thin.
Qed.
End Thin.
