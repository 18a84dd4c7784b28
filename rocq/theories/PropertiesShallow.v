(** * Property C57: the shallow transformation *)
From Coq Require Import List Arith Bool Lia ZArith Reals Lra Permutation.
From Verif Require Import Num Graph GraphFacts Spec SpecFacts Circuit EvalFacts VarFacts Interval Dist DistFacts Simplify SimplifyFacts
  TreeProb PropertiesProb TreeLocal NormalizeFacts Restrict Conditional Copy CopyFacts Rename Layout LayoutFacts MixtureFacts PropertiesMarginal PropertiesConditional
  Heap Interaction InteractionFacts MountTree Shallow ShallowFacts ShallowTree ShallowCircuit.
Import ListNotations.
Local Set Bullet Behavior "Strict Subproofs".
Local Open Scope R_scope.

(** ** The specification *)
(** The shallow circuit of a valid circuit answers every event like the circuit. *)
Definition C57_full : Prop := forall g r t, valid_tree g r t ->
  exists q, from_probabilistic_circuit g = Some q /\ forall e p, event_ok t e -> answers g e p -> answers q e p.

(** Weaker: it describes the same distribution once its mass is divided out. *)
Definition C57_proportional_full : Prop := forall g r t, valid_tree g r t ->
  exists q c, from_probabilistic_circuit g = Some q /\ 0 < c /\ forall e p, event_ok t e -> answers g e p -> answers q e (c * p).

(** A sum of products of leaves. *)
Definition shallow_form {D} (t : pc D) : Prop := exists l : list (num * list D), l <> [] /\ t = PSum (map (fun x => (fst x, PProd (map PLeaf (snd x)))) l).

(** What is computed instead: below the root all weights are dropped, and a root that is not a leaf gets the factor e. *)
Fixpoint unweighted {D} (val : D -> R) (t : pc D) : R :=
  match t with
  | PLeaf d => val d
  | PSum l => Rsum (map (fun wt => unweighted val (snd wt)) l)
  | PProd l => Rprod (map (unweighted val) l)
  end.

Definition shallow_value {D} (val : D -> R) (t : pc D) : R :=
  match t with
  | PLeaf d => val d
  | PSum l => exp 1 * Rsum (map (fun wt => wexp (fst wt) * unweighted val (snd wt)) l)
  | PProd l => exp 1 * Rprod (map (unweighted val) l)
  end.

(** ** Values of the flat mixture *)
Section Value.
Context {D : Type} (val : D -> R).

Definition plain (l : list (num * list D)) : R := Rsum (map (fun x => Rprod (map val (snd x))) l).
Definition valued (l : list (num * list D)) : R := Rsum (map (fun x => wexp (fst x) * Rprod (map val (snd x))) l).

Lemma flat_value l : semR val (flat_tree l) = valued l.
Proof. cbn. unfold valued. f_equal. rewrite map_map. apply map_ext. intros x. cbn. now rewrite map_map. Qed.

Lemma reorder_perm {A} (l : list (bool * A)) : Permutation (reorder l) (map snd l).
Proof.
  unfold reorder. rewrite <- map_app. apply Permutation_map. induction l as [|[[|] a] l IH]; cbn.
  - constructor.
  - constructor. exact IH.
  - symmetry. apply Permutation_cons_app. symmetry. exact IH.
Qed.

Lemma wexp_shift w : wexp (nadd w (Fin 1)) = exp 1 * wexp w.
Proof. destruct w; cbn; rewrite ?exp_plus; ring. Qed.

Lemma Rsum_flat {A} (f : A -> list R) l : Rsum (flat_map f l) = Rsum (map (fun a => Rsum (f a)) l).
Proof. induction l as [|a l IH]; [reflexivity|]. cbn. rewrite Rsum_app, IH. reflexivity. Qed.

Lemma Rprod_concat ls : Rprod (concat ls) = Rprod (map Rprod ls).
Proof. induction ls as [|l ls IH]; [reflexivity|]. cbn. rewrite Rprod_app, IH. reflexivity. Qed.

(** A product of sums is the sum over all choices. *)
Lemma cartesian_value {A} (f : A -> R) ls : Rsum (map (fun c => Rprod (map f c)) (cartesian ls)) = Rprod (map (fun x => Rsum (map f x)) ls).
Proof.
  induction ls as [|x ls IH]; [cbn; ring|]. cbn [cartesian map]. change (Rprod (Rsum (map f x) :: map (fun x => Rsum (map f x)) ls)) with (Rsum (map f x) * Rprod (map (fun x => Rsum (map f x)) ls)).
  rewrite <- IH. clear IH. induction x as [|a x IHx]; [cbn; ring|]. cbn [flat_map map]. rewrite map_app, Rsum_app, IHx.
  change (Rsum (f a :: map f x)) with (f a + Rsum (map f x)). rewrite Rmult_plus_distr_r. f_equal. rewrite map_map. rewrite <- Rsum_scal. reflexivity.
Qed.

Lemma Rsum_reorder {A} (f : A -> R) (l : list (bool * A)) : Rsum (map f (reorder l)) = Rsum (map (fun x => f (snd x)) l).
Proof. rewrite <- (map_map snd f). apply Rsum_perm, Permutation_map, reorder_perm. Qed.

Lemma Rprod_reorder {A} (f : A -> R) (l : list (bool * A)) : Rprod (map f (reorder l)) = Rprod (map (fun x => f (snd x)) l).
Proof. rewrite <- (map_map snd f). apply Rprod_perm, Permutation_map, reorder_perm. Qed.

Lemma choices_plain (parts : list (option num * list (num * list D))) :
  plain (map (fun c => (Fin 1, concat (map snd c))) (cartesian (map snd parts))) = Rprod (map (fun p => plain (snd p)) parts).
Proof.
  unfold plain. rewrite map_map. cbn [snd]. rewrite <- (map_map snd (fun x => Rsum (map (fun y : num * list D => Rprod (map val (snd y))) x))), <- cartesian_value.
  f_equal. apply map_ext. intros c. rewrite concat_map, Rprod_concat, !map_map. reflexivity.
Qed.

Lemma iflat_plain i : plain (iflat i) = unweighted val (shape i).
Proof.
  induction i as [n d|b n l IH] using it_ind'; [cbn; ring|]. rewrite Forall_forall in IH. destruct b; cbn [iflat shape unweighted].
  - unfold plain. rewrite flat_map_concat_map, concat_map, map_map, <- flat_map_concat_map, Rsum_flat.
    rewrite (Rsum_reorder (fun p => Rsum (map (fun x : num * list D => Rprod (map val (snd x))) (map (fun x : num * list D => (nadd (lw_of (fst p)) (Fin 1), snd x)) (snd p))))).
    rewrite !map_map. cbn [fst snd]. f_equal. apply map_ext_in. intros wt Hw. rewrite <- (IH wt Hw). unfold plain. rewrite map_map. reflexivity.
  - rewrite choices_plain, Rprod_reorder, !map_map. cbn [fst snd]. f_equal. apply map_ext_in. intros wt Hw. apply IH, Hw.
Qed.

Lemma iflat_valued i : valued (iflat i) = shallow_value val (shape i).
Proof.
  destruct i as [n d|[|] n l]; cbn [iflat shape shallow_value].
  - unfold valued. cbn. rewrite exp_0. ring.
  - unfold valued. rewrite flat_map_concat_map, concat_map, map_map, <- flat_map_concat_map, Rsum_flat.
    rewrite (Rsum_reorder (fun p => Rsum (map (fun x : num * list D => wexp (fst x) * Rprod (map val (snd x))) (map (fun x : num * list D => (nadd (lw_of (fst p)) (Fin 1), snd x)) (snd p))))).
    rewrite !map_map. cbn [fst snd]. rewrite <- Rsum_scal. f_equal. apply map_ext. intros wt. cbn [fst snd]. rewrite <- iflat_plain. unfold plain. rewrite map_map. cbn [fst snd]. rewrite <- Rmult_assoc, <- wexp_shift.
    rewrite <- Rsum_scal. reflexivity.
  - set (parts := reorder (map (fun wt => (is_isum (snd wt), (fst wt, iflat (snd wt)))) l)).
    transitivity (exp 1 * plain (map (fun c => (Fin 1, concat (map snd c))) (cartesian (map snd parts)))).
    + unfold valued, plain. rewrite <- Rsum_scal, !map_map. reflexivity.
    + f_equal. unfold parts. rewrite choices_plain, Rprod_reorder, !map_map. cbn [fst snd]. f_equal. apply map_ext. intros wt. apply iflat_plain.
Qed.
End Value.

Lemma iflat_some {D} g (i : it (D := D)) : at_tree g i -> iflat i <> [].
Proof.
  induction i as [n d|b n l IH] using it_ind'; [discriminate|]. intros H. rewrite Forall_forall in IH. assert (Hk : forall wt, In wt l -> iflat (snd wt) <> []) by (intros wt Hw; apply (IH wt Hw); eapply at_children; eauto).
  cbn [iflat]. pose proof (reorder_perm (map (fun wt => (is_isum (snd wt), (fst wt, iflat (snd wt)))) l)) as P. rewrite map_map in P. cbn [snd] in P. set (parts := reorder _) in *. clearbody parts.
  assert (Hp : forall p, In p parts -> snd p <> []) by (intros p Hp; apply (Permutation_in _ P) in Hp; apply in_map_iff in Hp; destruct Hp as (wt & <- & Hw); cbn; auto). destruct b.
  - destruct H as (_ & _ & Ne & _). destruct parts as [|p parts]; [apply Permutation_nil in P; apply map_eq_nil in P; exfalso; now apply Ne|].
    specialize (Hp p (or_introl eq_refl)). cbn. destruct (snd p); [contradiction|discriminate].
  - clear P. assert (X : cartesian (map snd parts) <> []). { induction parts as [|p parts IHp]; [discriminate|]. assert (Hq : snd p <> []) by (apply Hp; now left). cbn. destruct (snd p) as [|a x]; [contradiction|]. cbn.
      destruct (cartesian (map snd parts)) eqn:E; [exfalso; apply IHp; auto; intros q Hq'; apply Hp; now right|discriminate]. }
    intros E. apply map_eq_nil in E. contradiction.
Qed.

(** ** What is proved *)
Lemma flat_sums_ok {D} (F : list (num * list D)) : Forall (fun x => lw_ok (fst x)) F -> all_sums (Forall lw_ok) (flat_tree F).
Proof.
  intros H. cbn. split; [rewrite map_map; cbn; rewrite Forall_map; exact H|]. apply fold_and_Forall. rewrite Forall_map, Forall_forall. intros x _. cbn.
  apply fold_and_Forall. rewrite Forall_forall. intros y Hy. apply in_map_iff in Hy. destruct Hy as (d & <- & _). exact I.
Qed.

Lemma iflat_ok {D} (i : it (D := D)) : match shape i with PSum l => Forall lw_ok (map fst l) | _ => True end -> Forall (fun x => lw_ok (fst x)) (iflat i).
Proof.
  destruct i as [n d|[|] n l]; cbn [shape iflat]; intros H.
  - constructor; [exact I|constructor].
  - rewrite map_map in H. cbn [fst] in H. rewrite Forall_map, Forall_forall in H. apply Forall_forall. intros x Hx. apply in_flat_map in Hx. destruct Hx as (p & Hp & Hx). apply in_map_iff in Hx. destruct Hx as (y & <- & _). cbn [fst].
    apply (Permutation_in _ (reorder_perm _)) in Hp. rewrite map_map in Hp. apply in_map_iff in Hp. destruct Hp as (wt & <- & Hw). cbn [fst snd]. specialize (H wt Hw). destruct (lw_of (fst wt)); cbn in *; tauto.
  - apply Forall_forall. intros x Hx. apply in_map_iff in Hx. destruct Hx as (c & <- & _). exact I.
Qed.

Lemma in_cartesian {A} (ls : list (list A)) c a : In c (cartesian ls) -> In a c -> exists x, In x ls /\ In a x.
Proof. intros Hc Ha. apply cartesian_in in Hc. destruct (MountTree.Forall2_in_l _ _ _ a Hc Ha) as (x & Hx & H). eauto. Qed.

Lemma iflat_leaves {D} (P : D -> Prop) (i : it (D := D)) : all_leaves P (shape i) -> forall x d, In x (iflat i) -> In d (snd x) -> P d.
Proof.
  induction i as [n d|b n l IH] using it_ind'; intros H x d' Hx Hd.
  - destruct Hx as [<-|[]]. destruct Hd as [<-|[]]. exact H.
  - rewrite Forall_forall in IH. assert (Hk : forall wt, In wt l -> all_leaves P (shape (snd wt))).
    { intros wt Hw. destruct b; cbn in H; apply fold_and_Forall in H; rewrite Forall_map, Forall_forall in H; now apply (H wt). }
    cbn [iflat] in Hx. pose proof (reorder_perm (map (fun wt => (is_isum (snd wt), (fst wt, iflat (snd wt)))) l)) as Pm. rewrite map_map in Pm. cbn [snd] in Pm. set (parts := reorder _) in *. clearbody parts.
    assert (Hp : forall p y, In p parts -> In y (snd p) -> forall d, In d (snd y) -> P d).
    { intros p y Hp Hy d Hd'. apply (Permutation_in _ Pm) in Hp. apply in_map_iff in Hp. destruct Hp as (wt & <- & Hw). cbn in Hy. eapply (IH wt Hw); eauto. }
    destruct b.
    + apply in_flat_map in Hx. destruct Hx as (p & Hp' & Hx). apply in_map_iff in Hx. destruct Hx as (y & <- & Hy). cbn in Hd. eauto.
    + apply in_map_iff in Hx. destruct Hx as (c & <- & Hc). cbn in Hd. apply in_concat in Hd. destruct Hd as (ds & Hds & Hd). apply in_map_iff in Hds. destruct Hds as (y & <- & Hy).
      destruct (in_cartesian _ _ _ Hc Hy) as (z & Hz & Hyz). apply in_map_iff in Hz. destruct Hz as (p & <- & Hp'). eauto.
Qed.

Lemma flat_leaves {D} (P : D -> Prop) (i : it (D := D)) : all_leaves P (shape i) -> all_leaves P (flat_tree (iflat i)).
Proof.
  intros H. cbn. apply fold_and_Forall. rewrite Forall_map, Forall_forall. intros x Hx. cbn. apply fold_and_Forall. rewrite Forall_map, Forall_forall. intros d Hd. cbn. eapply iflat_leaves; eauto.
Qed.

(** For every tree-shaped circuit the call succeeds, the result is a circuit in shallow form, and its value is [shallow_value],
    whatever the leaves compute (likelihoods, cumulative probabilities, probabilities of events). *)
Theorem C57_characterised {D} (g : graph D) r t : tree_shaped g r -> leaves_terminal g -> unfolds g r t ->
  exists q T, from_probabilistic_circuit g = Some q /\ layered_circuit q T /\ shallow_form T /\
    (forall P : D -> Prop, all_leaves P t -> all_leaves P T) /\ (all_sums (Forall lw_ok) t -> all_sums (Forall lw_ok) T) /\
    forall val, semR val T = shallow_value val t.
Proof.
  intros TS LT U. destruct (shallow_circuit g r t TS LT U) as (q & i & E & At & Sh & Ly). exists q, (flat_tree (iflat i)). split; [exact E|]. split; [exact Ly|].
  split; [exists (iflat i); split; [eapply iflat_some; eauto|reflexivity]|]. rewrite <- Sh. split; [intros P; apply flat_leaves|]. split.
  - intros H. apply flat_sums_ok, iflat_ok. destruct (shape i); auto. apply H.
  - intros val. rewrite flat_value. apply iflat_valued.
Qed.

(** The probability of every event under the shallow circuit of a valid circuit. *)
Theorem C57_probability g r t : valid_tree g r t ->
  exists q, from_probabilistic_circuit g = Some q /\ forall e, event_ok t e -> answers q e (shallow_value (fun d => probR d (e (dvar d))) t).
Proof.
  intros V. destruct (C57_characterised g r t (vt_tree _ _ _ V) (vt_leaf _ _ _ V) (vt_unfolds _ _ _ V)) as (q & T & E & Ly & _ & Lv & Sm & Val). exists q. split; [exact E|].
  intros e He. rewrite <- Val. apply answers_semR; auto.
  - apply Sm, normalised_lw_ok, V.
  - apply Lv, V.
  - apply Lv. exact He.
Qed.

(** ** Circuits whose distribution is kept *)
(** Number of terms of the mixture. *)
Fixpoint terms {D} (t : pc D) : R :=
  match t with
  | PLeaf _ => 1
  | PSum l => Rsum (map (fun wt => terms (snd wt)) l)
  | PProd l => Rprod (map terms l)
  end.

(** Every sum weights its children by their number of terms. *)
Fixpoint evenly {D} (t : pc D) : Prop :=
  match t with
  | PLeaf _ => True
  | PSum l => fold_right and True (map (fun wt => wexp (fst wt) * Rsum (map (fun wt => terms (snd wt)) l) = terms (snd wt) /\ evenly (snd wt)) l)
  | PProd l => fold_right and True (map evenly l)
  end.

Lemma evenly_value {D} (val : D -> R) t : evenly t -> unweighted val t = terms t * semR val t.
Proof.
  induction t as [d|l IH|l IH] using pc_ind'; cbn [evenly unweighted terms semR]; intros H.
  - ring.
  - apply fold_and_Forall in H. rewrite Forall_forall in H. rewrite Forall_forall in IH. rewrite <- Rsum_scal. apply Rsum_ext. intros wt Hw. destruct (H wt Hw) as [H1 H2].
    rewrite (IH wt Hw H2), <- H1. ring.
  - apply fold_and_Forall in H. rewrite Forall_forall in H. rewrite Forall_forall in IH. clear - H IH. induction l as [|t l IHl]; [cbn; ring|].
    cbn [map]. change (unweighted val t * Rprod (map (unweighted val) l) = (terms t * Rprod (map terms l)) * (semR val t * Rprod (map (semR val) l))).
    rewrite (IH t (or_introl eq_refl) (H t (or_introl eq_refl))), IHl; [ring| |]; intros; [apply IH|apply H]; auto; now right.
Qed.

(** Below the root every sum is even, and all children of a root that is a sum have [k] terms. *)
Definition even_below {D} (k : R) (t : pc D) : Prop :=
  match t with
  | PLeaf _ => False
  | PSum l => forall wt, In wt l -> evenly (snd wt) /\ terms (snd wt) = k
  | PProd l => (forall u, In u l -> evenly u) /\ Rprod (map terms l) = k
  end.

(** Proved part 1: for these circuits every probability of the shallow circuit is e * k times the probability of the circuit.
    Missing: all other circuits, for which even that is false, and the factor, which is never 1. *)
Theorem C57_proportional_partial g r t k : valid_tree g r t -> even_below k t ->
  exists q, from_probabilistic_circuit g = Some q /\ forall e, event_ok t e -> exists p, answers g e p /\ answers q e (exp 1 * k * p).
Proof.
  intros V Ev. destruct (C57_probability g r t V) as (q & E & H). exists q. split; [exact E|]. intros e He. set (val := fun d => probR d (e (dvar d))). exists (semR val t). split.
  - apply answers_semR; auto; [|apply normalised_lw_ok, V|apply V]. destruct V. split; [apply vt_tree|]. split; [exact vt_leaf|]. exists r. split; [now apply tree_root|]. split; [now apply tree_graded|exact vt_unfolds].
  - replace (exp 1 * k * semR val t) with (shallow_value val t); [apply H, He|]. destruct t as [d|l|l]; cbn [even_below shallow_value semR] in *; [destruct Ev| |].
    + rewrite Rmult_assoc. f_equal. rewrite <- Rsum_scal. apply Rsum_ext. intros wt Hw. destruct (Ev wt Hw) as [E1 E2]. rewrite evenly_value, E2 by exact E1. ring.
    + destruct Ev as [Ev <-]. rewrite Rmult_assoc. f_equal. assert (X : evenly (PProd l)) by (cbn; apply fold_and_Forall; rewrite Forall_forall; auto). exact (evenly_value val (PProd l) X).
Qed.

(** Proved part 2: a circuit that is a leaf keeps its distribution. *)
Theorem C57_leaf_partial g r d : valid_tree g r (PLeaf d) ->
  exists q, from_probabilistic_circuit g = Some q /\ forall e p, event_ok (PLeaf d) e -> answers g e p -> answers q e p.
Proof.
  intros V. destruct (C57_probability g r _ V) as (q & E & H). exists q. split; [exact E|]. intros e p He Hp. specialize (H e He). cbn in H.
  assert (X : answers g e (semR (fun d => probR d (e (dvar d))) (PLeaf d))).
  { apply answers_semR; auto; [|apply normalised_lw_ok, V|apply V]. destruct V. split; [apply vt_tree|]. split; [exact vt_leaf|]. exists r. split; [now apply tree_root|]. split; [now apply tree_graded|exact vt_unfolds]. }
  rewrite (answers_unique _ _ _ _ Hp X). exact H.
Qed.

(** ** The claim itself is false *)
(** A biased coin beside an independent second variable. *)
Definition coin_side (k : Z) : dist := DSym 0 [(k, 1)].
Definition biased : pc dist := PProd [PSum [(nlog (Fin (9/10)), PLeaf (coin_side 0)); (nlog (Fin (1/10)), PLeaf (coin_side 1))]; PLeaf (DSym 1 [(0%Z, 1)])].
Definition shows (k : Z) : sevent := fun v => if (v =? 0)%nat then ESym [k] else ESym [0%Z].

Lemma point_ok v k : dist_ok (DSym v [(k, 1)]).
Proof. cbn. unfold dict_ok, keys, vals. cbn. split; [|ring]. split; repeat constructor; cbn; auto; lra. Qed.

Lemma biased_valid : valid_tree (layout biased) 0%nat biased.
Proof.
  assert (W9 : 0 <= 9/10) by lra. assert (W1 : 0 <= 1/10) by lra. destruct (ModeFacts.wexp_nlog _ W9) as [A1 A2]. destruct (ModeFacts.wexp_nlog _ W1) as [B1 B2].
  constructor.
  - apply layout_tree.
  - apply layout_leaves_terminal.
  - apply layout_unfolds. cbn -[nlog]. repeat (first [exact I | discriminate | split | apply Forall_cons | apply Forall_nil]).
  - unfold normalised, biased. cbn -[nlog]. split; [|auto]. split; [|auto]. split; [repeat constructor; auto|]. cbn -[nlog]. rewrite A2, B2. lra.
  - cbn. repeat split; intros; lia.
  - cbn. repeat split; intros; lia.
  - cbn -[dist_ok]. repeat (first [exact I | apply (point_ok 0) | apply (point_ok 1) | split]).
Qed.

Lemma biased_event k : event_ok biased (shows k).
Proof. unfold event_ok. cbn. repeat split; repeat constructor; intros []. Qed.

Lemma side_prob v a b : probR (DSym v [(a, 1)]) (ESym [b]) = if (a =? b)%Z then 1 else 0.
Proof.
  cbn. unfold Reqb. destruct (Z.eqb_spec a b) as [->|N]; destruct (Req_EM_T (IZR b) (IZR _)) as [E|E]; cbn; try ring; try (exfalso; congruence). apply eq_IZR in E. congruence.
Qed.

Lemma biased_answers : answers (layout biased) (shows 0) (9/10) /\ answers (layout biased) (shows 1) (1/10).
Proof.
  assert (W9 : 0 <= 9/10) by lra. assert (W1 : 0 <= 1/10) by lra. destruct (ModeFacts.wexp_nlog _ W9) as [_ A2]. destruct (ModeFacts.wexp_nlog _ W1) as [_ B2].
  assert (H : forall k, answers (layout biased) (shows k) (semR (fun d => probR d (shows k (dvar d))) biased)).
  { intros k. pose proof biased_valid as V. apply answers_semR; [|apply normalised_lw_ok, V|apply V|apply biased_event]. destruct V. split; [apply vt_tree|]. split; [exact vt_leaf|]. exists 0%nat. split; [now apply tree_root|]. split; [now apply tree_graded|exact vt_unfolds]. }
  split.
  - replace (9/10) with (semR (fun d => probR d (shows 0 (dvar d))) biased); [apply H|]. unfold biased, coin_side, shows. cbn [semR map fst snd dvar Nat.eqb]. rewrite !side_prob, A2, B2. cbn. lra.
  - replace (1/10) with (semR (fun d => probR d (shows 1 (dvar d))) biased); [apply H|]. unfold biased, coin_side, shows. cbn [semR map fst snd dvar Nat.eqb]. rewrite !side_prob, A2, B2. cbn. lra.
Qed.

(** Both sides of the coin get the same probability. *)
Lemma biased_shallow q : from_probabilistic_circuit (layout biased) = Some q -> answers q (shows 0) (exp 1) /\ answers q (shows 1) (exp 1).
Proof.
  intros E. destruct (C57_probability _ _ _ biased_valid) as (q' & E' & H). rewrite E in E'. injection E' as <-.
  split; [replace (exp 1) with (shallow_value (fun d => probR d (shows 0 (dvar d))) biased)|replace (exp 1) with (shallow_value (fun d => probR d (shows 1 (dvar d))) biased)]; try apply H, biased_event;
    unfold biased, coin_side, shows; cbn [shallow_value unweighted map fst snd dvar Nat.eqb]; rewrite !side_prob; cbn -[exp]; ring.
Qed.

Theorem C57_proportional_refuted : ~ C57_proportional_full.
Proof.
  intros H. destruct (H _ _ _ biased_valid) as (q & c & E & Hc & Ha). destruct (biased_shallow q E) as [S0 S1]. destruct biased_answers as [A0 A1].
  pose proof (answers_unique _ _ _ _ S0 (Ha _ _ (biased_event 0) A0)) as E0. pose proof (answers_unique _ _ _ _ S1 (Ha _ _ (biased_event 1) A1)) as E1. lra.
Qed.

Theorem C57_shallow_refuted : ~ C57_full.
Proof.
  intros H. apply C57_proportional_refuted. intros g r t V. destruct (H g r t V) as (q & E & Ha). exists q, 1. split; [exact E|]. split; [lra|]. intros e p He Hp. rewrite Rmult_1_l. auto.
Qed.

(** ** Cases *)
(** A fair coin nested in a sum: even below the root, with two terms per child. *)
Definition fair (v : nat) : pc dist := PSum [(nlog (Fin (1/2)), PLeaf (DSym v [(0%Z, 1)])); (nlog (Fin (1/2)), PLeaf (DSym v [(1%Z, 1)]))].
Definition mixture_of_fair : pc dist := PSum [(nlog (Fin (9/10)), PProd [fair 0; PLeaf (DSym 1 [(0%Z, 1)])]); (nlog (Fin (1/10)), PProd [fair 0; PLeaf (DSym 1 [(1%Z, 1)])])].

Example C57_case : valid_tree (layout mixture_of_fair) 0%nat mixture_of_fair /\ even_below 2 mixture_of_fair /\
  valid_tree (layout (PLeaf (coin_side 0))) 0%nat (PLeaf (coin_side 0)).
Proof.
  assert (W9 : 0 <= 9/10) by lra. assert (W1 : 0 <= 1/10) by lra. assert (W2 : 0 <= 1/2) by lra.
  destruct (ModeFacts.wexp_nlog _ W9) as [A1 A2]. destruct (ModeFacts.wexp_nlog _ W1) as [B1 B2]. destruct (ModeFacts.wexp_nlog _ W2) as [C1 C2].
  assert (N : forall v, normalised (fair v)).
  { intros v. unfold normalised, fair. cbn -[nlog]. split; [|auto]. split; [repeat constructor; auto|]. cbn -[nlog]. rewrite C2. lra. }
  split; [|split].
  - constructor.
    + apply layout_tree.
    + apply layout_leaves_terminal.
    + apply layout_unfolds. cbn -[nlog]. repeat (first [exact I | discriminate | split | apply Forall_cons | apply Forall_nil]).
    + pose proof (N 0%nat) as N0. unfold normalised in *. unfold mixture_of_fair. cbn [all_sums map fst snd fold_right]. split; [|auto]. split; [repeat constructor; auto|]. cbn [map Rsum fold_right]. rewrite A2, B2. lra.
    + cbn. repeat split; intros; lia.
    + cbn. repeat split; intros; lia.
    + cbn -[dist_ok]. repeat (first [exact I | apply (point_ok 0) | apply (point_ok 1) | split]).
  - assert (Ev : evenly (fair 0) /\ terms (fair 0) = 2).
    { unfold fair. cbn -[nlog]. rewrite C2. repeat split; auto; lra. }
    destruct Ev as [E1 E2]. intros wt [<-|[<-|[]]]; cbn [snd]; (split; [cbn [evenly map fold_right]; auto|]); cbn [terms map Rprod fold_right]; change (terms (fair 0) * (1 * 1) = 2); rewrite E2; ring.
  - constructor; try (cbn; auto; fail).
    + apply layout_tree.
    + apply layout_leaves_terminal.
    + apply layout_unfolds. exact I.
    + apply point_ok.
Qed.

Print Assumptions C57_characterised.
Print Assumptions C57_probability.
Print Assumptions C57_proportional_partial.
Print Assumptions C57_leaf_partial.
Print Assumptions C57_proportional_refuted.
Print Assumptions C57_shallow_refuted.
