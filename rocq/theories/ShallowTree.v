(** * ShallowTree: the shallow transformation of a tree-shaped circuit *)
From Coq Require Import List Arith Bool Lia ZArith Reals Lra.
From Verif Require Import Num Graph GraphFacts Spec SpecFacts Circuit EvalFacts VarFacts Interval Dist Simplify SimplifyFacts
  TreeLocal NormalizeFacts Restrict Conditional Copy CopyFacts Heap Interaction InteractionFacts MountTree Shallow ShallowFacts.
Import ListNotations.
Local Set Bullet Behavior "Strict Subproofs".
Local Open Scope nat_scope.

(** Entries marked [true] first, otherwise in order. *)
Definition reorder {A} (l : list (bool * A)) : list A := map snd (filter fst l) ++ map snd (filter (fun x => negb (fst x)) l).
Definition lw_of (w : option num) : num := match w with Some x => x | None => Fin 0 end.

Section Tree.
Context {D : Type}.
Implicit Types g h : graph D.

(** ** Trees with the numbers of their units *)
Inductive it : Type :=
| ILeaf (n : id) (d : D)
| IIn (b : bool) (n : id) (l : list (option num * it)).

Fixpoint it_ind' (P : it -> Prop) (HL : forall n d, P (ILeaf n d)) (HI : forall b n l, Forall (fun wt => P (snd wt)) l -> P (IIn b n l)) (t : it) : P t :=
  match t with
  | ILeaf n d => HL n d
  | IIn b n l => HI b n l ((fix go l := match l return Forall (fun wt => P (snd wt)) l with [] => Forall_nil _ | wt :: l' => Forall_cons _ (it_ind' P HL HI (snd wt)) (go l') end) l)
  end.

Definition iroot (t : it) : id := match t with ILeaf n _ | IIn _ n _ => n end.
Definition is_isum (t : it) : bool := match t with IIn true _ _ => true | _ => false end.
Fixpoint ids (t : it) : list id := match t with ILeaf n _ => [n] | IIn _ n l => n :: flat_map (fun wt => ids (snd wt)) l end.
Fixpoint iheight (t : it) : nat := match t with ILeaf _ _ => 1 | IIn _ _ l => S (list_max (map (fun wt => iheight (snd wt)) l)) end.

Fixpoint at_tree g (t : it) : Prop :=
  match t with
  | ILeaf n d => node_kind g n = Some (ULeaf d) /\ out g n = []
  | IIn b n l => node_kind g n = Some (if b then USum else UProd) /\ out g n = map (fun wt => (iroot (snd wt), fst wt)) l /\ (b = true -> l <> []) /\
      fold_right and True (map (fun wt => at_tree g (snd wt)) l)
  end.

(** The mixture of products of leaves that is made of a tree. *)
Fixpoint iflat (t : it) : list (num * list D) :=
  match t with
  | ILeaf _ d => [(Fin 0, [d])]
  | IIn b _ l =>
    let parts := reorder (map (fun wt => (is_isum (snd wt), (fst wt, iflat (snd wt)))) l) in
    if b then flat_map (fun p => map (fun x => (nadd (lw_of (fst p)) (Fin 1), snd x)) (snd p)) parts
    else map (fun c => (Fin 1, concat (map snd c))) (cartesian (map snd parts))
  end.

Lemma root_in t : In (iroot t) (ids t).
Proof. destruct t; cbn; auto. Qed.

Lemma at_children g b n l wt : at_tree g (IIn b n l) -> In wt l -> at_tree g (snd wt).
Proof. intros (_ & _ & _ & H) Hi. apply fold_and_Forall in H. rewrite Forall_forall in H. now apply H. Qed.

Lemma at_nodes g t : at_tree g t -> forall x, In x (ids t) -> In x (node_ids g).
Proof.
  induction t as [n d|b n l IH] using it_ind'; intros H x Hx.
  - destruct Hx as [<-|[]]. eapply node_kind_ids. apply H.
  - destruct Hx as [<-|Hx]; [eapply node_kind_ids; apply H|]. apply in_flat_map in Hx. destruct Hx as (wt & Hw & Hx). rewrite Forall_forall in IH. apply (IH wt Hw); auto. eapply at_children; eauto.
Qed.

(** The children of units of the tree are units of the tree. *)
Lemma at_down g t : at_tree g t -> forall a b, In a (ids t) -> In b (subcircuits g a) -> In b (ids t).
Proof.
  induction t as [n d|k n l IH] using it_ind'; intros H a b Ha Hb.
  - destruct Ha as [<-|[]]. destruct H as [_ H]. rewrite sub_out, H in Hb. destruct Hb.
  - destruct Ha as [<-|Ha].
    + destruct H as (_ & H & _). cbn [iroot] in *. rewrite sub_out, H, map_map in Hb. apply in_map_iff in Hb. destruct Hb as (wt & <- & Hw). right. apply in_flat_map. exists wt. split; [exact Hw|apply root_in].
    + apply in_flat_map in Ha. destruct Ha as (wt & Hw & Ha). right. apply in_flat_map. exists wt. split; [exact Hw|]. rewrite Forall_forall in IH. eapply (IH wt Hw); eauto. eapply at_children; eauto.
Qed.

Lemma at_frame g h t : at_tree g t -> (forall x, In x (ids t) -> node_kind h x = node_kind g x /\ out h x = out g x) -> at_tree h t.
Proof.
  induction t as [n d|b n l IH] using it_ind'; intros H F.
  - destruct H as [H1 H2]. destruct (F n (or_introl eq_refl)) as [F1 F2]. split; congruence.
  - destruct (F n (or_introl eq_refl)) as [F1 F2]. pose proof H as (H1 & H2 & H3 & H4). split; [congruence|]. split; [congruence|]. split; [exact H3|]. apply fold_and_Forall, Forall_forall. intros wt Hw.
    rewrite Forall_forall in IH. apply (IH wt Hw); [eapply at_children; eauto|]. intros x Hx. apply F. right. apply in_flat_map. eauto.
Qed.

(** ** The shape that is produced *)
Record part := mkPart { p_id : id; p_w : num; p_ls : list id }.
Definition owned (s : id) (S : list part) : list id := s :: map p_id S ++ flat_map p_ls S.

Record shallow_at g (s : id) (S : list part) : Prop := {
  sa_kind : node_kind g s = Some USum;
  sa_out : out g s = map (fun p => (p_id p, Some (p_w p))) S;
  sa_prod : forall p, In p S -> node_kind g (p_id p) = Some UProd /\ out g (p_id p) = map (fun l => (l, None)) (p_ls p);
  sa_leaf : forall p l, In p S -> In l (p_ls p) -> (exists d, node_kind g l = Some (ULeaf d)) /\ out g l = []
}.

Definition leaf_dist g (l : id) : option D := match node_kind g l with Some (ULeaf d) => Some d | _ => None end.
Definition reads g (S : list part) : list (num * list (option D)) := map (fun p => (p_w p, map (leaf_dist g) (p_ls p))) S.
Definition flagged (l : list (num * list D)) : list (num * list (option D)) := map (fun x => (fst x, map Some (snd x))) l.

Lemma owned_cases s S x : In x (owned s S) <-> x = s \/ (exists p, In p S /\ x = p_id p) \/ exists p, In p S /\ In x (p_ls p).
Proof.
  unfold owned. cbn. rewrite in_app_iff, in_map_iff, in_flat_map. split; [intros [->|[(p & <- & H)|(p & H1 & H2)]]|intros [->|[(p & H & ->)|(p & H1 & H2)]]]; eauto 8.
Qed.

Lemma owned_down g s S : shallow_at g s S -> forall a b, In a (owned s S) -> In b (subcircuits g a) -> In b (owned s S).
Proof.
  intros [K O P L] a b Ha Hb. rewrite sub_out in Hb. apply owned_cases in Ha. destruct Ha as [->|[(p & Hp & ->)|(p & Hp & Hl)]].
  - rewrite O, map_map in Hb. apply in_map_iff in Hb. destruct Hb as (p & <- & Hp). apply owned_cases. eauto.
  - destruct (P p Hp) as [_ E]. rewrite E, map_map in Hb. apply in_map_iff in Hb. destruct Hb as (l & <- & Hl). apply owned_cases. right. right. exists p. cbn. auto.
  - destruct (L p a Hp Hl) as [_ E]. rewrite E in Hb. destruct Hb.
Qed.

Lemma owned_nodes g s S : shallow_at g s S -> forall x, In x (owned s S) -> In x (node_ids g).
Proof.
  intros [K O P L] x Hx. apply owned_cases in Hx. destruct Hx as [->|[(p & Hp & ->)|(p & Hp & Hl)]].
  - eapply node_kind_ids; eauto.
  - eapply node_kind_ids. apply (P p Hp).
  - destruct (L p x Hp Hl) as [[d E] _]. eapply node_kind_ids; eauto.
Qed.

Lemma shallow_frame g h s S : shallow_at g s S -> (forall x, In x (owned s S) -> node_kind h x = node_kind g x /\ out h x = out g x) -> shallow_at h s S.
Proof.
  intros [K O P L] F. constructor.
  - rewrite (proj1 (F s ltac:(apply owned_cases; auto))). exact K.
  - rewrite (proj2 (F s ltac:(apply owned_cases; auto))). exact O.
  - intros p Hp. destruct (F (p_id p)) as [-> ->]; [apply owned_cases; eauto|]. auto.
  - intros p l Hp Hl. destruct (F l) as [-> ->]; [apply owned_cases; eauto|]. eauto.
Qed.

Lemma reads_frame g h s S : (forall x, In x (owned s S) -> node_kind h x = node_kind g x) -> reads h S = reads g S.
Proof.
  intros F. unfold reads. apply map_ext_in. intros p Hp. f_equal. apply map_ext_in. intros l Hl. unfold leaf_dist. rewrite F; [reflexivity|]. apply owned_cases. eauto.
Qed.

(** ** The contract of [shallowing] *)
Record pre g (f : nat) (t : it) (up : option id) : Prop := {
  pr_wf : wf g;
  pr_bound : forall x, In x (node_ids g) -> x < f;
  pr_at : at_tree g t;
  pr_nodup : NoDup (ids t);
  pr_closed : forall a b, In b (subcircuits g a) -> In b (ids t) -> In a (ids t) \/ (up = Some a /\ b = iroot t);
  pr_up : forall u, up = Some u -> ~ In u (ids t) /\ In (iroot t) (subcircuits g u)
}.

Record post g (f : nat) (t : it) (up : option id) g' (f' : nat) (s : id) (S : list part) : Prop := {
  po_wf : wf g';
  po_bound : forall x, In x (node_ids g') -> x < f';
  po_fresh : f <= f';
  po_at : shallow_at g' s S;
  po_some : S <> [];
  po_reads : reads g' S = flagged (iflat t);
  po_owned : forall x, In x (owned s S) -> In x (ids t) \/ f <= x;
  po_root : if is_isum t then s = iroot t else f <= s;
  po_nodes : forall x, In x (node_ids g') <-> (In x (node_ids g) /\ ~ In x (ids t)) \/ In x (owned s S);
  po_frame : forall x, In x (node_ids g) -> ~ In x (ids t) -> up <> Some x -> node_kind g' x = node_kind g x /\ out g' x = out g x;
  po_up : forall u, up = Some u -> node_kind g' u = node_kind g u /\
    if is_isum t then out g' u = out g u
    else forall lw, In (iroot t, lw) (out g u) -> out g' u = filter (fun p => negb (fst p =? iroot t)) (out g u) ++ [(s, lw)]
}.

Definition good (t : it) : Prop := forall fuel g f up, iheight t <= fuel -> pre g f t up ->
  exists g' f' s S, shallowing fuel (iroot t) up (g, f) = Some (g', f') /\ post g f t up g' f' s S.

(** ** Redirecting the edge of the parent *)
Lemma redirect_spec g up n s : wf g -> In s (node_ids g) -> (forall u, up = Some u -> In n (subcircuits g u) /\ ~ In s (subcircuits g u)) ->
  exists g', redirect g up n s = Some g' /\ wf g' /\ (forall x, In x (node_ids g') <-> In x (node_ids g)) /\ (forall x, node_kind g' x = node_kind g x) /\
    (forall x, up <> Some x -> out g' x = out g x) /\
    (forall u, up = Some u -> forall lw, In (n, lw) (out g u) -> out g' u = filter (fun p => negb (fst p =? n)) (out g u) ++ [(s, lw)]).
Proof.
  intros W Hs Hup. destruct up as [u|]; cbn [redirect].
  - destruct (Hup u eq_refl) as [Hn Hns]. pose proof Hn as Hn'. rewrite sub_out in Hn. apply in_map_iff in Hn. destruct Hn as ([n' lw] & E & Hn). cbn in E. subst n'.
    rewrite (edge_data_out _ _ _ _ W Hn). assert (Hu : In u (node_ids g)) by (eapply sub_src; eauto).
    destruct (edge_new g u s lw W Hu Hs Hns) as (W1 & N1 & O1 & F1 & K1). set (g1 := add_edge g u s lw) in *.
    destruct (edge_gone g1 u n W1) as (g2 & E2 & W2 & N2 & O2 & F2 & K2).
    { rewrite sub_out, O1, map_app. apply in_app_iff. left. rewrite <- sub_out. exact Hn'. }
    exists g2. split; [exact E2|]. split; [exact W2|]. split; [intros x; rewrite N2; apply N1|]. split; [intros x; rewrite K2; apply K1|]. split.
    + intros x Hx. assert (x <> u) by congruence. rewrite F2, F1; auto.
    + intros u' Eu lw' Hl. injection Eu as <-. assert (lw' = lw) as ->.
      { pose proof (edge_data_out _ _ _ _ W Hn) as X. rewrite (edge_data_out _ _ _ _ W Hl) in X. congruence. }
      rewrite O2, O1, filter_app. f_equal. cbn. destruct (Nat.eqb_spec s n); [subst; contradiction|reflexivity].
  - exists g. split; [reflexivity|]. split; [exact W|]. split; [tauto|]. split; [auto|]. split; [auto|discriminate].
Qed.

(** ** Leaves *)
Lemma good_leaf n d : good (ILeaf n d).
Proof.
  intros fuel g f up Hf [W B A N C U]. destruct fuel as [|fuel]; [cbn in Hf; lia|]. cbn [shallowing fst iroot]. destruct A as [A1 A2]. rewrite A1. unfold wrap_leaf.
  assert (Hn : In n (node_ids g)) by (eapply node_kind_ids; eauto). pose proof (B n Hn) as Bn.
  assert (X1 : ~ In f (node_ids g)) by (intros H; apply B in H; lia).
  destruct (node_new g f USum W X1) as (W1 & N1 & O1 & O1' & K1 & F1). set (g1 := add_node g f USum) in *.
  assert (X2 : ~ In (S f) (node_ids g1)). { rewrite N1. intros [H|H]; [apply B in H; lia|lia]. }
  destruct (node_new g1 (S f) UProd W1 X2) as (W2 & N2 & O2 & O2' & K2 & F2). set (g2 := add_node g1 (S f) UProd) in *.
  assert (I2 : forall x, In x (node_ids g2) <-> In x (node_ids g) \/ x = f \/ x = S f) by (intros x; rewrite N2, N1; tauto).
  destruct (edge_new g2 (S f) n None W2) as (W3 & N3 & O3 & F3 & K3); [apply I2; tauto|apply I2; tauto|rewrite sub_out, O2'; intros []|]. set (g3 := add_edge g2 (S f) n None) in *.
  assert (I3 : forall x, In x (node_ids g3) <-> In x (node_ids g) \/ x = f \/ x = S f) by (intros x; rewrite N3; apply I2).
  assert (Of : out g3 f = []) by (rewrite F3 by lia; rewrite O2; exact O1').
  destruct (edge_new g3 f (S f) (Some (Fin 0)) W3) as (W4 & N4 & O4 & F4 & K4); [apply I3; tauto|apply I3; tauto|rewrite sub_out, Of; intros []|]. set (g4 := add_edge g3 f (S f) (Some (Fin 0))) in *.
  assert (I4 : forall x, In x (node_ids g4) <-> In x (node_ids g) \/ x = f \/ x = S f) by (intros x; rewrite N4; apply I3).
  assert (Old : forall x, In x (node_ids g) -> node_kind g4 x = node_kind g x /\ out g4 x = out g x).
  { intros x Hx. apply B in Hx. rewrite K4, K3, F2, F1 by lia. split; [reflexivity|]. rewrite F4, F3, O2, O1 by lia. reflexivity. }
  destruct (redirect_spec g4 up n f W4) as (g5 & E5 & W5 & N5 & K5 & F5 & U5); [apply I4; tauto| |].
  { intros u Eu. destruct (U u Eu) as [Hu1 Hu2]. assert (Hu : In u (node_ids g)) by (eapply sub_src; eauto). rewrite sub_out. destruct (Old u Hu) as [_ ->]. rewrite <- sub_out. split; [exact Hu2|]. intros X. apply X1. eapply sub_dst; eauto. }
  assert (I5 : forall x, In x (node_ids g5) <-> In x (node_ids g) \/ x = f \/ x = S f) by (intros x; rewrite N5; apply I4).
  assert (Up : forall u, up = Some u -> In u (node_ids g) /\ u <> n).
  { intros u Eu. destruct (U u Eu) as [Hu1 Hu2]. split; [eapply sub_src; eauto|]. intros ->. apply Hu1. now left. }
  assert (Uf : forall x, f <= x -> up <> Some x) by (intros x Hx E; apply Up in E; destruct E as [E _]; apply B in E; lia).
  assert (Un : up <> Some n) by (intros E; apply Up in E; tauto).
  exists g5, (S (S f)), f, [mkPart (S f) (Fin 0) [n]]. cbn zeta. fold g1. fold g2. fold g3. fold g4. rewrite E5. split; [reflexivity|]. constructor; auto.
  - intros x Hx. apply I5 in Hx. destruct Hx as [Hx|Hx]; [apply B in Hx; lia|lia].
  - constructor; cbn [map p_id p_w p_ls].
    + rewrite K5, K4, K3, F2 by lia. exact K1.
    + rewrite F5 by (apply Uf; lia). rewrite O4, Of. reflexivity.
    + intros p [<-|[]]. cbn. rewrite K5, K4, K3. split; [exact K2|]. rewrite F5 by (apply Uf; lia). rewrite F4 by lia. rewrite O3, O2'. reflexivity.
    + intros p l [<-|[]] [<-|[]]. rewrite K5, F5 by exact Un. destruct (Old n Hn) as [-> ->]. eauto.
  - discriminate.
  - cbn. unfold leaf_dist. rewrite K5, (proj1 (Old n Hn)), A1. reflexivity.
  - intros x. cbn. intros [<-|[<-|[<-|[]]]]; auto.
  - cbn. lia.
  - intros x. rewrite I5. cbn. split.
    + intros [Hx|[->| ->]]; auto. destruct (Nat.eq_dec n x); [subst; tauto|]. left. split; [exact Hx|]. intros [E|[]]; auto.
    + intros [[Hx _]|[<-|[<-|[<-|[]]]]]; auto.
  - intros x Hx _ Hu. rewrite K5, F5 by exact Hu. apply Old, Hx.
  - intros u Eu. rewrite K5. destruct (Up u Eu) as [Hu _]. destruct (Old u Hu) as [-> Eo]. split; [reflexivity|]. cbn [is_isum]. intros lw Hl. cbn [iroot] in *. rewrite <- Eo in Hl |- *. now apply U5.
Qed.

(** ** Combinations of parts *)
Lemma cartesian_map {A B} (f : A -> B) ls : cartesian (map (map f) ls) = map (map f) (cartesian ls).
Proof.
  induction ls as [|x ls IH]; [reflexivity|]. cbn. rewrite IH. clear IH. induction x as [|a x IH]; [reflexivity|]. cbn. rewrite IH, map_app. f_equal. rewrite !map_map. reflexivity.
Qed.

Lemma cartesian_in {A} (ls : list (list A)) c : In c (cartesian ls) <-> Forall2 (fun a x => In a x) c ls.
Proof.
  revert c. induction ls as [|x ls IH]; intros c; cbn.
  - split; [intros [<-|[]]; constructor|]. intros H. inversion H. auto.
  - rewrite in_flat_map. split.
    + intros (a & Ha & H). apply in_map_iff in H. destruct H as (c' & <- & H). constructor; [exact Ha|now apply IH].
    + intros H. inversion H as [|a ? c' ? H1 H2]; subst. exists a. split; [exact H1|]. apply in_map, IH, H2.
Qed.

Lemma cartesian_cover {A} (ls : list (list A)) x a : (forall y, In y ls -> y <> []) -> In x ls -> In a x -> exists c, In c (cartesian ls) /\ In a c.
Proof.
  induction ls as [|y ls IH]; intros Hn Hx Ha; [destruct Hx|]. assert (Ne : exists c, In c (cartesian ls)).
  { clear IH Hx. induction ls as [|z ls IH]; [exists []; now left|]. destruct IH as [c Hc]; [intros w [->|Hw]; apply Hn; cbn; auto|].
    destruct z as [|b z]; [exfalso; apply (Hn []); cbn; auto|]. exists (b :: c). cbn. apply in_app_iff. left. now apply in_map. }
  destruct Hx as [->|Hx].
  - destruct Ne as [c Hc]. exists (a :: c). split; [|now left]. cbn. apply in_flat_map. exists a. split; [exact Ha|now apply in_map].
  - destruct (IH ltac:(intros w Hw; apply Hn; now right) Hx Ha) as (c & Hc & Hac). destruct y as [|b y]; [exfalso; apply (Hn []); cbn; auto|].
    exists (b :: c). split; [|now right]. cbn. apply in_app_iff. left. now apply in_map.
Qed.

Lemma combinations_spec (ls : id -> list id) s cs : forall g p, wf g -> (forall x, In x (node_ids g) -> x < p) -> In s (node_ids g) ->
  (forall c u, In c cs -> In u c -> In u (node_ids g) /\ u <> s /\ out g u = map (fun l => (l, None)) (ls u)) -> (forall c, In c cs -> NoDup (flat_map ls c)) ->
  exists g' T, fold_left (add_combination s) cs (g, p) = (g', p + length cs) /\ wf g' /\ map p_id T = seq p (length cs) /\
    Forall2 (fun c t => p_w t = Fin 1 /\ p_ls t = flat_map ls c) cs T /\
    (forall x, In x (node_ids g') <-> In x (node_ids g) \/ In x (map p_id T)) /\
    out g' s = out g s ++ map (fun t => (p_id t, Some (p_w t))) T /\
    (forall t, In t T -> node_kind g' (p_id t) = Some UProd /\ out g' (p_id t) = map (fun l => (l, None)) (p_ls t)) /\
    (forall x, x < p -> node_kind g' x = node_kind g x) /\ (forall x, x < p -> x <> s -> out g' x = out g x).
Proof.
  induction cs as [|c cs IH]; intros g p W B Hs Hu Hd.
  - exists g, []. cbn. rewrite Nat.add_0_r, app_nil_r. split; [reflexivity|]. split; [exact W|]. split; [reflexivity|]. split; [constructor|]. split; [tauto|]. split; [reflexivity|]. split; [intros t []|auto].
  - assert (X1 : ~ In p (node_ids g)) by (intros H; apply B in H; lia). pose proof (B s Hs) as Bs.
    destruct (node_new g p UProd W X1) as (W1 & N1 & O1 & O1' & K1 & F1). cbn [fold_left]. unfold add_combination at 2. set (g1 := add_node g p UProd) in *.
    assert (Hc : forall u, In u c -> In u (node_ids g) /\ u <> s /\ out g u = map (fun l => (l, None)) (ls u)) by (intros u; apply Hu; now left).
    destruct (combination_spec ls p c g1 W1) as (W2 & N2 & O2 & F2 & K2).
    { apply N1. auto. }
    { intros u H. destruct (Hc u H) as (H1 & H2 & H3). split; [intros ->; contradiction|]. now rewrite O1. }
    { apply Hd. now left. }
    { intros l _. rewrite sub_out, O1'. intros []. }
    set (g2 := fold_left (fun g under => fold_left (fun g e => add_edge g p (e_dst e) (e_lw e)) (out_edges g under) g) c g1) in *.
    destruct (edge_new g2 s p (Some (Fin 1)) W2) as (W3 & N3 & O3 & F3 & K3).
    { apply N2, N1. auto. }
    { apply N2, N1. auto. }
    { rewrite sub_out, F2, O1 by lia. rewrite <- sub_out. intros H. apply (sub_dst _ _ _ W) in H. contradiction. }
    set (g3 := add_edge g2 s p (Some (Fin 1))) in *.
    assert (I3 : forall x, In x (node_ids g3) <-> In x (node_ids g) \/ x = p) by (intros x; rewrite N3, N2, N1; tauto).
    destruct (IH g3 (S p) W3) as (g' & T & E & W' & Ti & Tf & Tn & Ts & Tp & Tk & To).
    { intros x Hx. apply I3 in Hx. destruct Hx as [Hx| ->]; [apply B in Hx; lia|lia]. }
    { apply I3. auto. }
    { intros c' u Hc' Hu'. destruct (Hu c' u (or_intror Hc') Hu') as (H1 & H2 & H3). split; [apply I3; auto|]. split; [exact H2|]. pose proof (B u H1). rewrite F3, F2, O1 by (auto; lia). exact H3. }
    { intros c' Hc'. apply Hd. now right. }
    exists g', (mkPart p (Fin 1) (flat_map ls c) :: T). cbn [length]. split; [rewrite E; f_equal; lia|]. split; [exact W'|]. split; [cbn; now rewrite Ti|].
    split; [constructor; cbn; auto|]. split; [intros x; rewrite Tn, I3; cbn; intuition congruence|]. split.
    + rewrite Ts, O3, F2, O1 by lia. cbn [map]. rewrite <- app_assoc. reflexivity.
    + split; [|split].
      * intros t [<-|Ht]; [|auto]. cbn [p_id p_ls]. rewrite Tk, To by lia. rewrite K3, K2, F3, O2, O1' by lia. cbn. auto.
      * intros x Hx. rewrite Tk by lia. rewrite K3, K2, F1 by lia. reflexivity.
      * intros x Hx Hx'. rewrite To by (auto; lia). rewrite F3, F2, O1 by (auto; lia). reflexivity.
Qed.

(** ** The children of a unit *)
Record res := mkRes { r_s : id; r_w : option num; r_S : list part }.
Definition r_owned (r : res) : list id := owned (r_s r) (r_S r).
Definition cids (l : list (option num * it)) : list id := flat_map (fun wt => ids (snd wt)) l.

Section Kids.
Variables (b : bool) (n : id) (l : list (option num * it)) (g0 : graph D) (f0 : nat) (up : option id).
Hypothesis P0 : pre g0 f0 (IIn b n l) up.

Record inv (done todo : list (option num * it)) g (f : nat) (A B : list res) : Prop := {
  i_split : done ++ todo = l;
  i_wf : wf g;
  i_bound : forall x, In x (node_ids g) -> x < f;
  i_fresh : f0 <= f;
  i_kind : node_kind g n = node_kind g0 n;
  i_out : out g n = map (fun r => (r_s r, r_w r)) A ++ map (fun wt => (iroot (snd wt), fst wt)) todo ++ map (fun r => (r_s r, r_w r)) B;
  i_A : Forall2 (fun c r => r_w r = fst c /\ reads g (r_S r) = flagged (iflat (snd c))) (filter (fun c => is_isum (snd c)) done) A;
  i_B : Forall2 (fun c r => r_w r = fst c /\ reads g (r_S r) = flagged (iflat (snd c))) (filter (fun c => negb (is_isum (snd c))) done) B;
  i_at : forall r, In r (A ++ B) -> shallow_at g (r_s r) (r_S r) /\ r_S r <> [];
  i_disj : forall r r' x, In r (A ++ B) -> In r' (A ++ B) -> In x (r_owned r) -> In x (r_owned r') -> r = r';
  i_owned : forall r x, In r (A ++ B) -> In x (r_owned r) -> In x (cids done) \/ f0 <= x;
  i_nodes : forall x, In x (node_ids g) <-> (In x (node_ids g0) /\ ~ In x (cids done)) \/ exists r, In r (A ++ B) /\ In x (r_owned r);
  i_frame : forall x, In x (node_ids g0) -> ~ In x (cids done) -> x <> n -> node_kind g x = node_kind g0 x /\ out g x = out g0 x
}.

Lemma n_fresh x : In x (cids l) -> x <> n.
Proof. pose proof (pr_nodup _ _ _ _ P0) as N. cbn in N. inversion N; subst. intros H ->. contradiction. Qed.

Lemma n_bound : n < f0.
Proof. apply (pr_bound _ _ _ _ P0). apply (at_nodes _ _ (pr_at _ _ _ _ P0)). now left. Qed.

Lemma cids_nodup : NoDup (cids l).
Proof. pose proof (pr_nodup _ _ _ _ P0) as N. now inversion N. Qed.

Lemma cids_g0 x : In x (cids l) -> In x (node_ids g0) /\ x < f0.
Proof. intros H. assert (In x (node_ids g0)) by (apply (at_nodes _ _ (pr_at _ _ _ _ P0)); now right). split; [auto|now apply (pr_bound _ _ _ _ P0)]. Qed.

Lemma NoDup_app_disj {A} (X Y : list A) x : NoDup (X ++ Y) -> In x X -> In x Y -> False.
Proof. induction X as [|a X IH]; [intros _ []|]. cbn. intros N. inversion N; subst. intros [->|H] H'; [apply H1, in_app_iff; auto|auto]. Qed.

Lemma NoDup_app_l {A} (X Y : list A) : NoDup (X ++ Y) -> NoDup X.
Proof. induction X as [|a X IH]; [constructor|]. cbn. intros N. inversion N; subst. constructor; [intros X1; apply H1, in_app_iff; auto|auto]. Qed.

Lemma NoDup_app_r {A} (X Y : list A) : NoDup (X ++ Y) -> NoDup Y.
Proof. induction X as [|a X IH]; [auto|]. cbn. intros N. inversion N; auto. Qed.

Lemma cids_split done todo : done ++ todo = l -> forall x, In x (cids l) <-> In x (cids done) \/ In x (cids todo).
Proof. intros <- x. unfold cids. rewrite flat_map_app, in_app_iff. tauto. Qed.

Lemma todo_frame done todo g f A B : inv done todo g f A B -> forall x, In x (cids todo) -> In x (node_ids g) /\ node_kind g x = node_kind g0 x /\ out g x = out g0 x.
Proof.
  intros J x Hx. assert (Hl : In x (cids l)) by (apply (cids_split _ _ (i_split _ _ _ _ _ _ J)); auto). assert (Hd : ~ In x (cids done)).
  { intros Hd. pose proof cids_nodup as N. rewrite <- (i_split _ _ _ _ _ _ J) in N. unfold cids in N. rewrite flat_map_app in N. eapply NoDup_app_disj; eauto. }
  destruct (cids_g0 x Hl) as [H0 _]. split; [|apply (i_frame _ _ _ _ _ _ J); auto using n_fresh]. apply (i_nodes _ _ _ _ _ _ J). auto.
Qed.

(** Units that point into the region of one child. *)
Lemma old_link a x : In x (subcircuits g0 a) -> In x (cids l) -> a = n \/ exists c, In c l /\ In a (ids (snd c)) /\ In x (ids (snd c)).
Proof.
  intros Hx Hl. destruct (pr_closed _ _ _ _ P0 a x Hx) as [[Ha|Ha]|[_ E]]; [now right| | |].
  - cbn in Ha. auto.
  - right. unfold cids in *. apply in_flat_map in Ha. destruct Ha as (c & Hc & Ha). exists c. split; [exact Hc|]. split; [exact Ha|].
    eapply at_down; eauto. eapply at_children; [apply P0|exact Hc].
  - exfalso. apply (n_fresh x Hl). exact E.
Qed.

Lemma res_root r : In (r_s r) (r_owned r).
Proof. unfold r_owned, owned. now left. Qed.

Lemma inv_closed done todo g f A B : inv done todo g f A B -> forall r a x, In r (A ++ B) -> In x (subcircuits g a) -> In x (r_owned r) -> In a (r_owned r) \/ (a = n /\ x = r_s r).
Proof.
  intros J r a x Hr Hx Ho. pose proof (sub_src _ _ _ (i_wf _ _ _ _ _ _ J) Hx) as Ha. apply (i_nodes _ _ _ _ _ _ J) in Ha. destruct Ha as [[Ha Hd]|(r' & Hr' & Ha)].
  - destruct (Nat.eq_dec a n) as [->|Hn].
    + right. split; [reflexivity|]. rewrite sub_out, (i_out _ _ _ _ _ _ J), !map_app, !map_map in Hx. cbn in Hx. rewrite !in_app_iff in Hx.
      assert (X : In x (map r_s (A ++ B)) -> x = r_s r).
      { intros H. apply in_map_iff in H. destruct H as (r' & <- & Hr'). f_equal. apply (i_disj _ _ _ _ _ _ J r' r (r_s r')); auto using res_root. }
      rewrite map_app, in_app_iff in X. destruct Hx as [Hx|[Hx|Hx]]; auto. exfalso. apply in_map_iff in Hx. destruct Hx as (wt & <- & Hw).
      assert (Hc : In (iroot (snd wt)) (cids todo)) by (apply in_flat_map; exists wt; split; [exact Hw|apply root_in]).
      destruct (i_owned _ _ _ _ _ _ J _ _ Hr Ho) as [H|H].
      * pose proof cids_nodup as N. rewrite <- (i_split _ _ _ _ _ _ J) in N. unfold cids in N. rewrite flat_map_app in N. eapply NoDup_app_disj; eauto.
      * assert (Hl : In (iroot (snd wt)) (cids l)) by (apply (cids_split _ _ (i_split _ _ _ _ _ _ J)); auto). apply cids_g0 in Hl. lia.
    + destruct (i_frame _ _ _ _ _ _ J a Ha Hd Hn) as [_ E]. rewrite sub_out, E, <- sub_out in Hx. exfalso.
      pose proof (sub_dst _ _ _ (pr_wf _ _ _ _ P0) Hx) as H0. apply (pr_bound _ _ _ _ P0) in H0. destruct (i_owned _ _ _ _ _ _ J _ _ Hr Ho) as [H|H]; [|lia].
      assert (Hl : In x (cids l)) by (apply (cids_split _ _ (i_split _ _ _ _ _ _ J)); auto). destruct (old_link a x Hx Hl) as [->|(c & Hc & Ha' & Hx')]; [contradiction|].
      rewrite <- (i_split _ _ _ _ _ _ J) in Hc. apply in_app_iff in Hc. destruct Hc as [Hc|Hc]; [apply Hd, in_flat_map; eauto|].
      pose proof cids_nodup as N. rewrite <- (i_split _ _ _ _ _ _ J) in N. unfold cids in N. rewrite flat_map_app in N. eapply NoDup_app_disj; eauto. apply in_flat_map; eauto.
  - left. assert (E : r' = r); [|now subst]. apply (i_disj _ _ _ _ _ _ J r' r x); auto. eapply owned_down; eauto. now apply (i_at _ _ _ _ _ _ J).
Qed.

Lemma n_not_owned done todo g f A B : inv done todo g f A B -> forall r, In r (A ++ B) -> ~ In n (r_owned r).
Proof.
  intros J r Hr Hn. destruct (i_owned _ _ _ _ _ _ J _ _ Hr Hn) as [H|H].
  - apply (n_fresh n); auto. apply (cids_split _ _ (i_split _ _ _ _ _ _ J)). auto.
  - pose proof n_bound. lia.
Qed.

(** Only the parent points to the unit itself. *)
Lemma inv_parent done todo g f A B : inv done todo g f A B -> forall a, In n (subcircuits g a) -> up = Some a.
Proof.
  intros J a Hx. pose proof (sub_src _ _ _ (i_wf _ _ _ _ _ _ J) Hx) as Ha. apply (i_nodes _ _ _ _ _ _ J) in Ha. destruct Ha as [[Ha Hd]|(r' & Hr' & Ha)].
  - destruct (Nat.eq_dec a n) as [->|Hn].
    + exfalso. rewrite sub_out, (i_out _ _ _ _ _ _ J), !map_app, !map_map in Hx. cbn in Hx. rewrite !in_app_iff in Hx.
      assert (X : ~ In n (map r_s (A ++ B))).
      { intros H. apply in_map_iff in H. destruct H as (r' & E & Hr'). apply (n_not_owned _ _ _ _ _ _ J r' Hr'). rewrite <- E. apply res_root. }
      rewrite map_app, in_app_iff in X. destruct Hx as [Hx|[Hx|Hx]]; auto. apply in_map_iff in Hx. destruct Hx as (wt & E & Hw). apply (n_fresh n); auto.
      apply (cids_split _ _ (i_split _ _ _ _ _ _ J)). right. apply in_flat_map. exists wt. split; [exact Hw|]. rewrite <- E. apply root_in.
    + destruct (i_frame _ _ _ _ _ _ J a Ha Hd Hn) as [_ E]. rewrite sub_out, E, <- sub_out in Hx.
      destruct (pr_closed _ _ _ _ P0 a n Hx) as [[H|H]|[H _]]; [now left|cbn in H; congruence| |exact H].
      exfalso. apply in_flat_map in H. destruct H as (c & Hc & H). apply (n_fresh n); auto. apply in_flat_map. exists c. split; [exact Hc|]. eapply at_down; eauto. eapply at_children; [apply P0|exact Hc].
  - exfalso. apply (n_not_owned _ _ _ _ _ _ J r' Hr'). eapply owned_down; eauto. now apply (i_at _ _ _ _ _ _ J).
Qed.

Lemma kids_pre done c todo g f A B : inv done (c :: todo) g f A B -> pre g f (snd c) (Some n).
Proof.
  intros J. assert (Hc : In c l) by (rewrite <- (i_split _ _ _ _ _ _ J); apply in_app_iff; right; now left).
  pose proof cids_nodup as N. rewrite <- (i_split _ _ _ _ _ _ J) in N. unfold cids in N. rewrite flat_map_app in N. cbn [flat_map] in N.
  assert (Hin : forall x, In x (ids (snd c)) -> In x (cids (c :: todo))) by (intros x Hx; unfold cids; cbn [flat_map]; apply in_app_iff; auto).
  constructor.
  - apply J.
  - apply J.
  - apply at_frame with (g := g0); [eapply at_children; [apply P0|exact Hc]|]. intros x Hx. apply (todo_frame _ _ _ _ _ _ J). auto.
  - apply NoDup_app_r in N. now apply NoDup_app_l in N.
  - intros a x Hx Hi. pose proof (sub_src _ _ _ (i_wf _ _ _ _ _ _ J) Hx) as Ha. apply (i_nodes _ _ _ _ _ _ J) in Ha.
    assert (Hl : In x (cids l)) by (apply in_flat_map; eauto).
    assert (No : forall r, In r (A ++ B) -> ~ In x (r_owned r)).
    { intros r Hr Ho. destruct (i_owned _ _ _ _ _ _ J _ _ Hr Ho) as [H|H]; [|apply cids_g0 in Hl; lia]. eapply NoDup_app_disj; [exact N|exact H|]. apply in_app_iff. auto. }
    destruct Ha as [[Ha Hd]|(r' & Hr' & Ha)].
    + destruct (Nat.eq_dec a n) as [->|Hn].
      * right. split; [reflexivity|]. rewrite sub_out, (i_out _ _ _ _ _ _ J), !map_app, !map_map in Hx. cbn in Hx. rewrite !in_app_iff in Hx. cbn in Hx. rewrite in_app_iff in Hx.
        assert (X : ~ In x (map r_s (A ++ B))). { intros H. apply in_map_iff in H. destruct H as (r' & <- & Hr'). apply (No r' Hr'), res_root. }
        rewrite map_app, in_app_iff in X. destruct Hx as [Hx|[Hx|[Hx|Hx]]]; try tauto; [auto|]. exfalso. apply in_map_iff in Hx. destruct Hx as (wt & <- & Hw).
        apply NoDup_app_r in N. eapply NoDup_app_disj; [exact N|exact Hi|]. apply in_flat_map. exists wt. split; [exact Hw|apply root_in].
      * left. destruct (i_frame _ _ _ _ _ _ J a Ha Hd Hn) as [_ E]. rewrite sub_out, E, <- sub_out in Hx. destruct (old_link a x Hx Hl) as [->|(c' & Hc' & Ha' & Hx')]; [contradiction|].
        rewrite <- (i_split _ _ _ _ _ _ J) in Hc'. apply in_app_iff in Hc'. destruct Hc' as [Hc'|[<-|Hc']]; [exfalso; apply Hd, in_flat_map; eauto|exact Ha'|].
        exfalso. apply NoDup_app_r in N. eapply NoDup_app_disj; [exact N|exact Hi|]. apply in_flat_map. eauto.
    + exfalso. apply (No r' Hr'). eapply owned_down; eauto. now apply (i_at _ _ _ _ _ _ J).
  - intros u E. injection E as <-. split.
    + intros H. apply (n_fresh n); auto. apply in_flat_map. eauto.
    + rewrite sub_out, (i_out _ _ _ _ _ _ J), !map_app. apply in_app_iff. right. apply in_app_iff. left. now left.
Qed.

Lemma kids_start : inv [] l g0 f0 [] [].
Proof.
  destruct (pr_at _ _ _ _ P0) as (K & O & _). constructor; try (intros; contradiction); auto.
  - apply P0.
  - apply P0.
  - cbn [map app]. now rewrite app_nil_r.
  - constructor.
  - constructor.
  - intros x. split; [intros H; left; split; [exact H|intros []]|]. intros [[H _]|(r & [] & _)]. exact H.
Qed.

Lemma kids_step done c todo g f A B g' f' s S : inv done (c :: todo) g f A B -> post g f (snd c) (Some n) g' f' s S ->
  exists A' B', inv (done ++ [c]) todo g' f' A' B'.
Proof.
  intros J Q. pose proof (kids_pre _ _ _ _ _ _ _ J) as R. set (r := mkRes s (fst c) S).
  pose proof cids_nodup as N. rewrite <- (i_split _ _ _ _ _ _ J) in N. unfold cids in N. rewrite flat_map_app in N. cbn [flat_map] in N.
  assert (Hc : In c l) by (rewrite <- (i_split _ _ _ _ _ _ J); apply in_app_iff; right; now left).
  assert (Hd : forall x, In x (ids (snd c)) -> ~ In x (cids done)) by (intros x Hx Hx'; eapply NoDup_app_disj; [exact N|exact Hx'|apply in_app_iff; auto]).
  assert (Ed : forall x, In x (cids (done ++ [c])) <-> In x (cids done) \/ In x (ids (snd c))).
  { intros x. unfold cids. rewrite flat_map_app, in_app_iff. cbn. rewrite app_nil_r. tauto. }
  assert (Hids : forall x, In x (ids (snd c)) -> x < f0 /\ x <> n) by (intros x Hx; assert (In x (cids l)) by (apply in_flat_map; eauto); split; [now apply cids_g0|now apply n_fresh]).
  (* old results keep their units *)
  assert (Old : forall r', In r' (A ++ B) -> forall x, In x (r_owned r') -> In x (node_ids g) /\ ~ In x (ids (snd c)) /\ x <> n).
  { intros r' Hr' x Hx. split; [apply (i_nodes _ _ _ _ _ _ J); eauto|]. split; [|intros ->; exact (n_not_owned _ _ _ _ _ _ J r' Hr' Hx)].
    intros Hi. destruct (i_owned _ _ _ _ _ _ J _ _ Hr' Hx) as [H|H]; [now apply (Hd x)|]. apply Hids in Hi. lia. }
  assert (Fr : forall r', In r' (A ++ B) -> forall x, In x (r_owned r') -> node_kind g' x = node_kind g x /\ out g' x = out g x).
  { intros r' Hr' x Hx. destruct (Old r' Hr' x Hx) as (H1 & H2 & H3). apply (po_frame _ _ _ _ _ _ _ _ Q); auto. congruence. }
  assert (New : forall r', In r' (A ++ B) -> forall x, In x (r_owned r') -> In x (owned s S) -> False).
  { intros r' Hr' x Hx Hx'. destruct (Old r' Hr' x Hx) as (H1 & H2 & H3). destruct (po_owned _ _ _ _ _ _ _ _ Q x Hx') as [H|H]; [auto|]. apply (i_bound _ _ _ _ _ _ J) in H1. lia. }
  assert (Rd : forall r', In r' (A ++ B) -> reads g' (r_S r') = reads g (r_S r')) by (intros r' Hr'; apply reads_frame with (s := r_s r'); intros x Hx; now apply (Fr r' Hr')).
  destruct (po_up _ _ _ _ _ _ _ _ Q n eq_refl) as [Kn On].
  assert (NDout : NoDup (map fst (out g n))) by (apply out_nodup, J).
  (* the two cases only differ in the place of the new result *)
  assert (Main : forall A' B', (forall r', In r' (A' ++ B') <-> In r' (A ++ B) \/ r' = r) ->
    out g' n = map (fun r => (r_s r, r_w r)) A' ++ map (fun wt => (iroot (snd wt), fst wt)) todo ++ map (fun r => (r_s r, r_w r)) B' ->
    Forall2 (fun c r => r_w r = fst c /\ reads g' (r_S r) = flagged (iflat (snd c))) (filter (fun c => is_isum (snd c)) (done ++ [c])) A' ->
    Forall2 (fun c r => r_w r = fst c /\ reads g' (r_S r) = flagged (iflat (snd c))) (filter (fun c => negb (is_isum (snd c))) (done ++ [c])) B' ->
    inv (done ++ [c]) todo g' f' A' B').
  { intros A' B' HAB Ho HA HB. constructor; auto.
    - rewrite <- app_assoc. apply (i_split _ _ _ _ _ _ J).
    - apply Q.
    - apply Q.
    - pose proof (i_fresh _ _ _ _ _ _ J). pose proof (po_fresh _ _ _ _ _ _ _ _ Q). lia.
    - rewrite Kn. apply J.
    - intros r' Hr'. apply HAB in Hr'. destruct Hr' as [Hr'| ->]; [|split; apply Q]. split; [|now apply (i_at _ _ _ _ _ _ J)].
      apply shallow_frame with (g := g); [now apply (i_at _ _ _ _ _ _ J)|]. now apply (Fr r').
    - intros r1 r2 x H1 H2 X1 X2. apply HAB in H1, H2. destruct H1 as [H1| ->], H2 as [H2| ->]; auto.
      + eapply (i_disj _ _ _ _ _ _ J); eauto.
      + exfalso. eapply New; eauto.
      + exfalso. eapply New; eauto.
    - intros r' x Hr' Hx. rewrite Ed. apply HAB in Hr'. destruct Hr' as [Hr'| ->].
      + destruct (i_owned _ _ _ _ _ _ J _ _ Hr' Hx); auto.
      + destruct (po_owned _ _ _ _ _ _ _ _ Q x Hx) as [H|H]; auto. right. pose proof (i_fresh _ _ _ _ _ _ J). lia.
    - intros x. rewrite (po_nodes _ _ _ _ _ _ _ _ Q), (i_nodes _ _ _ _ _ _ J), Ed. split.
      + intros [[[[H1 H2]|(r' & Hr' & H)] H3]|H].
        * left. tauto.
        * right. exists r'. split; [apply HAB; auto|exact H].
        * right. exists r. split; [apply HAB; auto|exact H].
      + intros [[H1 H2]|(r' & Hr' & H)]; [left; split; [left|]; tauto|]. apply HAB in Hr'. destruct Hr' as [Hr'| ->]; [|now right].
        left. destruct (Old r' Hr' x H) as (H1 & H2 & _). split; [right; eauto|exact H2].
    - intros x Hx Hx' Hn. rewrite Ed in Hx'. destruct (i_frame _ _ _ _ _ _ J x Hx ltac:(tauto) Hn) as [<- <-]. apply (po_frame _ _ _ _ _ _ _ _ Q); [|tauto|congruence].
      apply (i_nodes _ _ _ _ _ _ J). tauto. }
  assert (Add : forall l1 (X : list res), incl X (A ++ B) -> Forall2 (fun c r => r_w r = fst c /\ reads g (r_S r) = flagged (iflat (snd c))) l1 X ->
    Forall2 (fun c r => r_w r = fst c /\ reads g' (r_S r) = flagged (iflat (snd c))) l1 X).
  { intros l1 X HX HF. eapply Forall2_impl_in; [|exact HF]. cbn. intros c' r' _ Hr' [H1 H2]. split; [exact H1|]. rewrite Rd; auto. }
  assert (HA : Forall2 (fun c r => r_w r = fst c /\ reads g' (r_S r) = flagged (iflat (snd c))) (filter (fun c => is_isum (snd c)) done) A) by (apply Add; [intros r' Hr'; apply in_app_iff; auto|apply J]).
  assert (HB : Forall2 (fun c r => r_w r = fst c /\ reads g' (r_S r) = flagged (iflat (snd c))) (filter (fun c => negb (is_isum (snd c))) done) B) by (apply Add; [intros r' Hr'; apply in_app_iff; auto|apply J]).
  assert (Hr : r_w r = fst c /\ reads g' (r_S r) = flagged (iflat (snd c))) by (split; [reflexivity|apply Q]).
  pose proof (i_out _ _ _ _ _ _ J) as Eo. cbn [map] in Eo. pose proof (po_root _ _ _ _ _ _ _ _ Q) as Er. destruct (is_isum (snd c)) eqn:Es.
  - exists (A ++ [r]), B. apply Main.
    + intros r'. rewrite !in_app_iff. cbn. intuition congruence.
    + rewrite On, Eo, map_app. cbn [map r r_s r_w]. rewrite Er, <- app_assoc. reflexivity.
    + rewrite filter_app. cbn [filter]. rewrite Es. apply Forall2_app; [exact HA|repeat constructor; apply Hr].
    + rewrite filter_app. cbn [filter]. rewrite Es. cbn [negb]. now rewrite app_nil_r.
  - exists A, (B ++ [r]). apply Main.
    + intros r'. rewrite !in_app_iff. cbn. intuition congruence.
    + rewrite (On (fst c)) by (rewrite Eo; apply in_app_iff; right; now left). rewrite Eo in *. cbn [app] in *. rewrite (filter_middle _ _ (iroot (snd c), fst c)) by exact NDout.
      rewrite map_app, <- !app_assoc. reflexivity.
    + rewrite filter_app. cbn [filter]. rewrite Es. now rewrite app_nil_r.
    + rewrite filter_app. cbn [filter]. rewrite Es. cbn [negb]. apply Forall2_app; [exact HB|repeat constructor; apply Hr].
Qed.

Lemma kids_all fuel : Forall (fun c => good (snd c)) l -> list_max (map (fun c => iheight (snd c)) l) <= fuel ->
  exists g f A B, foldM (fun st c => shallowing fuel c (Some n) st) (map (fun c => iroot (snd c)) l) (g0, f0) = Some (g, f) /\ inv l [] g f A B.
Proof.
  intros HG Hh. assert (X : forall todo done g f A B, inv done todo g f A B ->
    exists g1 f1 A1 B1, foldM (fun st c => shallowing fuel c (Some n) st) (map (fun c => iroot (snd c)) todo) (g, f) = Some (g1, f1) /\ inv (done ++ todo) [] g1 f1 A1 B1).
  { induction todo as [|c todo IH]; intros done g f A B J; [exists g, f, A, B; rewrite app_nil_r; auto|].
    assert (Hc : In c l) by (rewrite <- (i_split _ _ _ _ _ _ J); apply in_app_iff; right; now left).
    rewrite Forall_forall in HG. assert (Hf : iheight (snd c) <= fuel).
    { rewrite list_max_le, Forall_map, Forall_forall in Hh. now apply Hh. }
    destruct (HG c Hc fuel g f (Some n) Hf (kids_pre _ _ _ _ _ _ _ J)) as (g' & f' & s & S & E & Q). destruct (kids_step _ _ _ _ _ _ _ _ _ _ _ J Q) as (A' & B' & J').
    destruct (IH _ _ _ _ _ J') as (g1 & f1 & A1 & B1 & E1 & J1). exists g1, f1, A1, B1. cbn [map foldM]. rewrite E. split; [exact E1|]. now rewrite <- app_assoc in J1. }
  exact (X l [] g0 f0 [] [] kids_start).
Qed.

(** ** Lifting the parts of the children of a sum *)
Definition lifted (r : res) : list part := map (fun p => mkPart (p_id p) (nadd (lw_of (r_w r)) (Fin 1)) (p_ls p)) (r_S r).

Lemma res_unique g f A B r r' : inv l [] g f A B -> In r (A ++ B) -> In r' (A ++ B) -> r_s r = r_s r' -> r = r'.
Proof. intros J H H' E. apply (i_disj _ _ _ _ _ _ J r r' (r_s r)); auto using res_root. rewrite E. apply res_root. Qed.

Lemma out_results g f A B : inv l [] g f A B -> out g n = map (fun r => (r_s r, r_w r)) (A ++ B).
Proof. intros J. rewrite (i_out _ _ _ _ _ _ J). cbn [map app]. now rewrite map_app. Qed.

Lemma results_nodup g f A B : inv l [] g f A B -> NoDup (map r_s (A ++ B)).
Proof. intros J. pose proof (out_nodup g n (i_wf _ _ _ _ _ _ J)) as N. rewrite (out_results _ _ _ _ J), map_map in N. exact N. Qed.

Lemma part_owned r p : In p (r_S r) -> In (p_id p) (r_owned r).
Proof. intros H. apply owned_cases. eauto. Qed.

Lemma part_not_root g f A B r r' p : inv l [] g f A B -> In r (A ++ B) -> In r' (A ++ B) -> In p (r_S r) -> p_id p <> r_s r'.
Proof.
  intros J Hr Hr' Hp E. assert (X : r = r') by (apply (i_disj _ _ _ _ _ _ J r r' (p_id p)); auto using part_owned; rewrite E; apply res_root). subst r'.
  destruct (i_at _ _ _ _ _ _ J r Hr) as [[K _ P _] _]. destruct (P p Hp) as [K' _]. congruence.
Qed.

Lemma lift_all g f A B : inv l [] g f A B -> exists h, foldM (lift_child n) (map r_s (A ++ B)) g = Some h /\ wf h /\
  (forall x, In x (node_ids h) <-> In x (node_ids g) /\ ~ In x (map r_s (A ++ B))) /\
  out h n = map (fun p => (p_id p, Some (p_w p))) (flat_map lifted (A ++ B)) /\
  (forall x, ~ In x (map r_s (A ++ B)) -> node_kind h x = node_kind g x) /\
  (forall x, x <> n -> ~ In x (map r_s (A ++ B)) -> out h x = out g x).
Proof.
  intros J. pose proof (results_nodup _ _ _ _ J) as NR.
  assert (Nn : forall r, In r (A ++ B) -> r_s r <> n) by (intros r Hr E; apply (n_not_owned _ _ _ _ _ _ J r Hr); rewrite <- E; apply res_root).
  assert (NIn : In n (node_ids g)). { apply (i_nodes _ _ _ _ _ _ J). left. split; [apply (at_nodes _ _ (pr_at _ _ _ _ P0)); now left|]. intros H. now apply (n_fresh n H). }
  assert (X : forall todo done h, done ++ todo = A ++ B -> wf h ->
    (forall x, In x (node_ids h) <-> In x (node_ids g) /\ ~ In x (map r_s done)) ->
    out h n = map (fun r => (r_s r, r_w r)) todo ++ map (fun p => (p_id p, Some (p_w p))) (flat_map lifted done) ->
    (forall x, ~ In x (map r_s done) -> node_kind h x = node_kind g x) ->
    (forall x, x <> n -> ~ In x (map r_s done) -> out h x = out g x) ->
    exists h', foldM (lift_child n) (map r_s todo) h = Some h' /\ wf h' /\
      (forall x, In x (node_ids h') <-> In x (node_ids g) /\ ~ In x (map r_s (A ++ B))) /\
      out h' n = map (fun p => (p_id p, Some (p_w p))) (flat_map lifted (A ++ B)) /\
      (forall x, ~ In x (map r_s (A ++ B)) -> node_kind h' x = node_kind g x) /\
      (forall x, x <> n -> ~ In x (map r_s (A ++ B)) -> out h' x = out g x)).
  { induction todo as [|r todo IH]; intros done h Ed W Hn Ho Hk Hf.
    { rewrite app_nil_r in Ed. subst done. exists h. cbn [map app] in Ho. split; [reflexivity|]. split; [exact W|]. auto. }
    assert (Rin : In r (A ++ B)) by (rewrite <- Ed; apply in_app_iff; right; now left).
    assert (Din : forall r', In r' done -> In r' (A ++ B)) by (intros r' H; rewrite <- Ed; apply in_app_iff; auto).
    assert (Rnd : ~ In (r_s r) (map r_s done)). { rewrite <- Ed, map_app in NR. cbn [map] in NR. apply NoDup_remove_2 in NR. rewrite in_app_iff in NR. tauto. }
    destruct (i_at _ _ _ _ _ _ J r Rin) as [SA _]. destruct SA as [SK SO SP SL].
    assert (Or : out h (r_s r) = map (fun p => (p_id p, Some (p_w p))) (r_S r)) by (rewrite Hf; auto).
    cbn [map foldM]. unfold lift_child. assert (Ein : In (r_s r, r_w r) (out h n)) by (rewrite Ho; now left).
    rewrite (edge_data_out _ _ _ _ W Ein). fold (lw_of (r_w r)). set (w := nadd (lw_of (r_w r)) (Fin 1)).
    assert (Ef : fold_left (fun g p => add_edge g n p (Some w)) (subcircuits h (r_s r)) h = fold_left (fun g q => add_edge g n (fst q) (snd q)) (map (fun p => (p_id p, Some (p_w p))) (lifted r)) h).
    { rewrite sub_out, Or, map_map. unfold lifted. rewrite map_map. cbn. rewrite !fold_left_map. reflexivity. }
    cbv zeta. rewrite Ef. clear Ef.
    assert (Fl : map fst (map (fun p => (p_id p, Some (p_w p))) (lifted r)) = map p_id (r_S r)) by (unfold lifted; rewrite !map_map; reflexivity).
    assert (Hin : In n (node_ids h)). { apply Hn. split; [exact NIn|]. intros H. apply in_map_iff in H. destruct H as (r' & E & Hr'). apply (Nn r'); auto. }
    destruct (edges_new n (map (fun p => (p_id p, Some (p_w p))) (lifted r)) h W Hin) as (W1 & I1 & O1 & F1 & K1).
    { intros q Hq. assert (Hq' : In (fst q) (map p_id (r_S r))) by (rewrite <- Fl; now apply in_map). apply (sub_dst h (r_s r) _ W). rewrite sub_out, Or, map_map. exact Hq'. }
    { rewrite Fl. pose proof (out_nodup h (r_s r) W) as ND. rewrite Or, map_map in ND. exact ND. }
    { intros q Hq Hs. assert (Hq' : In (fst q) (map p_id (r_S r))) by (rewrite <- Fl; now apply in_map). apply in_map_iff in Hq'. destruct Hq' as (p & Ep & Hp). rewrite <- Ep in Hs.
      rewrite sub_out, Ho, map_app, !map_map, in_app_iff in Hs. cbn in Hs. destruct Hs as [Hs|Hs].
      - assert (Hs' : In (p_id p) (map r_s (r :: todo))) by exact Hs. apply in_map_iff in Hs'. destruct Hs' as (r' & Er & Hr'). apply (part_not_root _ _ _ _ r r' p J); auto. rewrite <- Ed. apply in_app_iff. now right.
      - apply in_map_iff in Hs. destruct Hs as (p' & E' & Hp'). apply in_flat_map in Hp'. destruct Hp' as (r' & Hr' & Hp'). unfold lifted in Hp'. apply in_map_iff in Hp'. destruct Hp' as (p2 & <- & Hp2). cbn in E'.
        assert (r' = r) as ->. { apply (i_disj _ _ _ _ _ _ J r' r (p_id p)); auto; [rewrite <- E'|]; now apply part_owned. }
        apply Rnd. now apply in_map. }
    set (h1 := fold_left (fun g q => add_edge g n (fst q) (snd q)) (map (fun p => (p_id p, Some (p_w p))) (lifted r)) h) in *.
    destruct (edge_gone h1 n (r_s r) W1) as (h2 & E2 & W2 & I2 & O2 & F2 & K2).
    { rewrite sub_out, O1, Ho. now left. }
    rewrite E2. pose proof (out_nodup h1 n W1) as ND1. rewrite O1, Ho in ND1, O2. cbn [map app] in ND1, O2.
    apply (fun E => eq_trans E (filter_middle [] _ (r_s r, r_w r) ND1)) in O2. cbn [app] in O2.
    assert (F3 : forall x, x <> n -> out h2 x = out h x) by (intros x Hx; rewrite F2, F1; auto).
    assert (Rh : In (r_s r) (node_ids h2)). { apply I2, I1, Hn. split; [|exact Rnd]. apply (i_nodes _ _ _ _ _ _ J). right. exists r. split; [exact Rin|apply res_root]. }
    assert (No : forall a, ~ In (r_s r) (subcircuits h2 a)).
    { intros a Ha. destruct (Nat.eq_dec a n) as [->|Hx].
      - cbn [fst map] in ND1. inversion ND1 as [|? ? N1 _]; subst. apply N1. rewrite sub_out, O2 in Ha. exact Ha.
      - rewrite sub_out, F3 in Ha by exact Hx. assert (Hd : ~ In a (map r_s done)).
        { intros Hd. assert (Hh : In (r_s r) (subcircuits h a)) by (now rewrite sub_out). apply (sub_src _ _ _ W) in Hh. apply Hn in Hh. tauto. }
        rewrite Hf, <- sub_out in Ha by auto. destruct (inv_closed _ _ _ _ _ _ J r a (r_s r) Rin Ha (res_root r)) as [Hw|[Hw _]]; [|contradiction].
        apply owned_cases in Hw. rewrite sub_out in Ha. destruct Hw as [->|[(p & Hp & ->)|(p & Hp & Hl)]].
        + rewrite SO, map_map in Ha. cbn in Ha. apply in_map_iff in Ha. destruct Ha as (p & E & Hp). apply (part_not_root _ _ _ _ r r p J); auto.
        + destruct (SP p Hp) as [_ E]. rewrite E, map_map in Ha. cbn in Ha. rewrite map_id in Ha. destruct (SL p _ Hp Ha) as [[d K] _]. congruence.
        + destruct (SL p _ Hp Hl) as [_ E]. rewrite E in Ha. destruct Ha. }
    unfold prune_orphan. rewrite (proj2 (orphan_true h2 (r_s r)) No). rewrite prune_one; [|exact W2|exact Rh|exact No|].
    2:{ intros v Hv. exists n. split; [intros E; apply (Nn r Rin); auto|]. rewrite sub_out, F3, Or, map_map in Hv by (apply Nn; exact Rin).
        rewrite sub_out, O2, !map_app, !in_app_iff, Fl. auto. }
    destruct (node_gone h2 (r_s r) W2 Rh No) as (_ & W3 & I3 & O3 & K3).
    assert (Ed' : (done ++ [r]) ++ todo = A ++ B) by (rewrite <- app_assoc; exact Ed).
    apply (IH (done ++ [r]) _ Ed'); auto.
    - intros x. rewrite I3, I2, I1, Hn, map_app, in_app_iff. cbn. intuition congruence.
    - rewrite O3 by (intros E; apply (Nn r Rin); auto). rewrite O2, flat_map_app, map_app, <- app_assoc. cbn [flat_map]. now rewrite app_nil_r.
    - intros x Hx. rewrite map_app, in_app_iff in Hx. cbn in Hx. rewrite K3, K2, K1, Hk by intuition congruence. reflexivity.
    - intros x Hx1 Hx. rewrite map_app, in_app_iff in Hx. cbn in Hx. rewrite O3, F3, Hf by intuition congruence. reflexivity. }
  apply (X (A ++ B) [] g eq_refl); auto.
  - apply J.
  - intros x. cbn. tauto.
  - cbn. rewrite app_nil_r. eapply out_results; eauto.
Qed.

Lemma leaf_not_root g f A B r r' p x : inv l [] g f A B -> In r (A ++ B) -> In r' (A ++ B) -> In p (r_S r) -> In x (p_ls p) -> x <> r_s r'.
Proof.
  intros J Hr Hr' Hp Hx E. assert (X : r = r') by (apply (i_disj _ _ _ _ _ _ J r r' x); auto; [apply owned_cases; eauto|rewrite E; apply res_root]). subst r'.
  destruct (i_at _ _ _ _ _ _ J r Hr) as [[K _ _ Ls] _]. destruct (Ls p x Hp Hx) as [[d K'] _]. congruence.
Qed.

Lemma leaf_not_part g f A B r r' p p' x : inv l [] g f A B -> In r (A ++ B) -> In r' (A ++ B) -> In p (r_S r) -> In x (p_ls p) -> In p' (r_S r') -> x <> p_id p'.
Proof.
  intros J Hr Hr' Hp Hx Hp' E. assert (X : r = r') by (apply (i_disj _ _ _ _ _ _ J r r' x); auto; [apply owned_cases; eauto|rewrite E; now apply part_owned]). subst r'.
  destruct (i_at _ _ _ _ _ _ J r Hr) as [[_ _ P Ls] _]. destruct (Ls p x Hp Hx) as [[d K'] _]. destruct (P p' Hp') as [K _]. congruence.
Qed.

(** Units outside the tree. *)
Lemma outside g f A B x : inv l [] g f A B -> In x (node_ids g0) -> ~ In x (ids (IIn b n l)) ->
  x <> n /\ In x (node_ids g) /\ (forall r, In r (A ++ B) -> ~ In x (r_owned r)) /\ node_kind g x = node_kind g0 x /\ out g x = out g0 x.
Proof.
  intros J Hx Hi. cbn in Hi. assert (Hn : x <> n) by (intros E; apply Hi; auto). assert (Hc : ~ In x (cids l)) by (intros H; apply Hi; auto). split; [exact Hn|].
  split; [apply (i_nodes _ _ _ _ _ _ J); auto|]. split; [|now apply (i_frame _ _ _ _ _ _ J)].
  intros r Hr Ho. destruct (i_owned _ _ _ _ _ _ J _ _ Hr Ho) as [H|H]; [contradiction|]. apply (pr_bound _ _ _ _ P0) in Hx. lia.
Qed.

Lemma up_outside u : up = Some u -> In u (node_ids g0) /\ ~ In u (ids (IIn b n l)).
Proof. intros E. destruct (pr_up _ _ _ _ P0 u E) as [H1 H2]. split; [eapply sub_src; [apply P0|exact H2]|exact H1]. Qed.

Lemma reorder_map {X Y} (f : X -> bool) (h : X -> Y) m : reorder (map (fun c => (f c, h c)) m) = map h (filter f m) ++ map h (filter (fun c => negb (f c)) m).
Proof. unfold reorder. f_equal; induction m as [|a m IH]; cbn; auto; destruct (f a); cbn; rewrite ?IH; reflexivity. Qed.

Definition parts_of : list (option num * it) := filter (fun c => is_isum (snd c)) l ++ filter (fun c => negb (is_isum (snd c))) l.

Lemma results_read g f A B : inv l [] g f A B -> Forall2 (fun c r => r_w r = fst c /\ reads g (r_S r) = flagged (iflat (snd c))) parts_of (A ++ B).
Proof. intros J. apply Forall2_app; apply J. Qed.

Lemma parts_eq : reorder (map (fun wt => (is_isum (snd wt), (fst wt, iflat (snd wt)))) l) = map (fun c => (fst c, iflat (snd c))) parts_of.
Proof. rewrite (reorder_map (fun c => is_isum (snd c)) (fun c => (fst c, iflat (snd c)))). unfold parts_of. now rewrite map_app. Qed.

Lemma reads_lifted g f A B : inv l [] g f A B -> reads g (flat_map lifted (A ++ B)) = flagged (iflat (IIn true n l)).
Proof.
  intros J. cbn [iflat]. rewrite parts_eq. pose proof (results_read _ _ _ _ J) as F. clear - F. induction F as [|c r cs rs [H1 H2] _ IH]; [reflexivity|].
  cbn [flat_map map fst snd]. unfold reads, flagged in *. rewrite !map_app, IH. f_equal. unfold lifted. rewrite !map_map. cbn. rewrite H1.
  transitivity (map (fun x => (nadd (lw_of (fst c)) (Fin 1), snd x)) (map (fun p => (p_w p, map (leaf_dist g) (p_ls p))) (r_S r))); [now rewrite map_map|].
  rewrite H2, map_map. reflexivity.
Qed.

Lemma lift_post g f A B h : b = true -> inv l [] g f A B -> foldM (lift_child n) (map r_s (A ++ B)) g = Some h -> post g0 f0 (IIn b n l) up h f n (flat_map lifted (A ++ B)).
Proof.
  intros Eb J Eh. destruct (lift_all _ _ _ _ J) as (h' & Eh' & W & Hn & Ho & Hk & Hf). assert (h' = h) as -> by congruence. clear Eh Eh'.
  assert (NIn : In n (node_ids g)). { apply (i_nodes _ _ _ _ _ _ J). left. split; [apply (at_nodes _ _ (pr_at _ _ _ _ P0)); now left|]. intros H. now apply (n_fresh n H). }
  assert (Nn : ~ In n (map r_s (A ++ B))). { intros H. apply in_map_iff in H. destruct H as (r & E & Hr). apply (n_not_owned _ _ _ _ _ _ J r Hr). rewrite <- E. apply res_root. }
  assert (Tin : forall t, In t (flat_map lifted (A ++ B)) <-> exists r p, In r (A ++ B) /\ In p (r_S r) /\ t = mkPart (p_id p) (nadd (lw_of (r_w r)) (Fin 1)) (p_ls p)).
  { intros t. rewrite in_flat_map. unfold lifted. split; [intros (r & Hr & H); apply in_map_iff in H; destruct H as (p & <- & Hp); eauto|]. intros (r & p & Hr & Hp & ->). exists r. split; [exact Hr|]. apply in_map_iff. eauto. }
  assert (Own : forall x, In x (owned n (flat_map lifted (A ++ B))) <-> x = n \/ exists r, In r (A ++ B) /\ In x (r_owned r) /\ x <> r_s r).
  { intros x. rewrite owned_cases. split.
    - intros [->|[(t & Ht & ->)|(t & Ht & Hx)]]; [auto| |]; apply Tin in Ht; destruct Ht as (r & p & Hr & Hp & ->); right; exists r; cbn in *; (split; [exact Hr|]).
      + split; [now apply part_owned|]. eapply part_not_root; eauto.
      + split; [apply owned_cases; eauto|]. eapply leaf_not_root; eauto.
    - intros [->|(r & Hr & Ho' & Hne)]; [auto|]. right. apply owned_cases in Ho'. destruct Ho' as [E|[(p & Hp & ->)|(p & Hp & Hx)]]; [contradiction| |].
      + left. eexists. split; [apply Tin; exists r, p; split; [exact Hr|]; split; [exact Hp|reflexivity]|reflexivity].
      + right. eexists. split; [apply Tin; exists r, p; split; [exact Hr|]; split; [exact Hp|reflexivity]|exact Hx]. }
  assert (Kp : forall r x, In r (A ++ B) -> In x (r_owned r) -> x <> r_s r -> ~ In x (map r_s (A ++ B)) /\ node_kind h x = node_kind g x /\ out h x = out g x).
  { intros r x Hr Hx Hne. assert (Y : ~ In x (map r_s (A ++ B))).
    { intros H. apply in_map_iff in H. destruct H as (r' & E & Hr'). assert (r = r') as <-; [|congruence]. apply (i_disj _ _ _ _ _ _ J r r' x); auto. rewrite <- E. apply res_root. }
    split; [exact Y|]. split; [now apply Hk|]. apply Hf; auto. intros ->. now apply (n_not_owned _ _ _ _ _ _ J r Hr). }
  assert (Out : forall x, In x (node_ids g0) -> ~ In x (ids (IIn b n l)) -> ~ In x (map r_s (A ++ B)) /\ node_kind h x = node_kind g0 x /\ out h x = out g0 x).
  { intros x Hx Hi. destruct (outside _ _ _ _ _ J Hx Hi) as (H1 & H2 & H3 & H4 & H5).
    assert (Y : ~ In x (map r_s (A ++ B))). { intros H. apply in_map_iff in H. destruct H as (r & E & Hr). apply (H3 r Hr). rewrite <- E. apply res_root. }
    split; [exact Y|]. rewrite Hk, Hf by auto. auto. }
  constructor; auto.
  - intros x Hx. apply Hn in Hx. apply (i_bound _ _ _ _ _ _ J). tauto.
  - apply J.
  - constructor.
    + rewrite Hk, (i_kind _ _ _ _ _ _ J) by exact Nn. destruct (pr_at _ _ _ _ P0) as (K & _). rewrite K, Eb. reflexivity.
    + exact Ho.
    + intros t Ht. apply Tin in Ht. destruct Ht as (r & p & Hr & Hp & ->). cbn. destruct (Kp r (p_id p) Hr) as (_ & -> & ->); [now apply part_owned|eapply part_not_root; eauto|]. apply (i_at _ _ _ _ _ _ J r Hr). exact Hp.
    + intros t x Ht Hx. apply Tin in Ht. destruct Ht as (r & p & Hr & Hp & ->). cbn in Hx. destruct (Kp r x Hr) as (_ & -> & ->); [apply owned_cases; eauto|eapply leaf_not_root; eauto|]. eapply (i_at _ _ _ _ _ _ J r Hr); eauto.
  - destruct (pr_at _ _ _ _ P0) as (_ & O & Ne & _). intros E. assert (Er : A ++ B = []).
    { destruct (A ++ B) as [|r rs] eqn:EA; [reflexivity|]. exfalso. destruct (i_at _ _ _ _ _ _ J r) as [_ X]; [rewrite EA; now left|]. cbn in E. apply app_eq_nil in E. destruct E as [E _]. unfold lifted in E. apply map_eq_nil in E. contradiction. }
    pose proof (results_read _ _ _ _ J) as F. rewrite Er in F. inversion F as [Ep|]. unfold parts_of in Ep. symmetry in Ep. apply app_eq_nil in Ep. destruct Ep as [E1 E2]. apply (Ne Eb).
    clear - E1 E2. destruct l as [|c m]; [reflexivity|]. cbn in *. destruct (is_isum (snd c)); discriminate.
  - rewrite Eb. rewrite <- (reads_lifted _ _ _ _ J). apply reads_frame with (s := n). intros x Hx. apply Own in Hx. destruct Hx as [->|(r & Hr & Hx & Hne)]; [now apply Hk|]. now apply (Kp r).
  - intros x Hx. apply Own in Hx. destruct Hx as [->|(r & Hr & Hx & _)]; [left; now left|]. destruct (i_owned _ _ _ _ _ _ J _ _ Hr Hx) as [H|H]; [left; now right|now right].
  - rewrite Eb. reflexivity.
  - intros x. rewrite Hn, (i_nodes _ _ _ _ _ _ J), Own. split.
    + intros [[[H1 H2]|(r & Hr & Hx)] H3].
      * destruct (Nat.eq_dec x n) as [->|Hne]; [right; now left|]. left. split; [exact H1|]. intros [H|H]; [now apply Hne|contradiction].
      * right. right. exists r. split; [exact Hr|]. split; [exact Hx|]. intros ->. apply H3. now apply in_map.
    + intros [[H1 H2]|[->|(r & Hr & Hx & Hne)]].
      * destruct (Out x H1 H2) as [H3 _]. split; [left; split; [exact H1|]|exact H3]. intros H. apply H2. now right.
      * split; [now apply (i_nodes _ _ _ _ _ _ J)|exact Nn].
      * split; [right; eauto|]. now apply (Kp r).
  - intros x Hx Hi _. now apply Out.
  - intros u Eu. destruct (up_outside u Eu) as [H1 H2]. destruct (Out u H1 H2) as (_ & K & O). rewrite Eb. cbn [is_isum]. auto.
Qed.

(** ** Distributing a product over the parts of its children *)
Definition gone_of (r : res) : list id := r_s r :: map p_id (r_S r).

Lemma gone_owned r x : In x (gone_of r) -> In x (r_owned r).
Proof. intros [<-|H]; [apply res_root|]. apply in_map_iff in H. destruct H as (p & <- & H). now apply part_owned. Qed.

(** Inside the region of one child. *)
Lemma region_root g f A B r a : inv l [] g f A B -> In r (A ++ B) -> In a (r_owned r) -> ~ In (r_s r) (subcircuits g a).
Proof.
  intros J Hr Ha Hx. destruct (i_at _ _ _ _ _ _ J r Hr) as [[SK SO SP SL] _]. apply owned_cases in Ha. rewrite sub_out in Hx. destruct Ha as [->|[(p & Hp & ->)|(p & Hp & Hl)]].
  - rewrite SO, map_map in Hx. cbn in Hx. apply in_map_iff in Hx. destruct Hx as (p & E & Hp). apply (part_not_root _ _ _ _ r r p J); auto.
  - destruct (SP p Hp) as [_ E]. rewrite E, map_map in Hx. cbn in Hx. rewrite map_id in Hx. destruct (SL p _ Hp Hx) as [[d K] _]. congruence.
  - destruct (SL p _ Hp Hl) as [_ E]. rewrite E in Hx. destruct Hx.
Qed.

Lemma region_part g f A B r a p : inv l [] g f A B -> In r (A ++ B) -> In p (r_S r) -> In a (r_owned r) -> In (p_id p) (subcircuits g a) -> a = r_s r.
Proof.
  intros J Hr Hp Ha Hx. destruct (i_at _ _ _ _ _ _ J r Hr) as [[SK SO SP SL] _]. apply owned_cases in Ha. rewrite sub_out in Hx. destruct Ha as [->|[(q & Hq & ->)|(q & Hq & Hl)]].
  - reflexivity.
  - exfalso. destruct (SP q Hq) as [_ E]. rewrite E, map_map in Hx. cbn in Hx. rewrite map_id in Hx. destruct (SL q _ Hq Hx) as [[d K] _]. destruct (SP p Hp) as [K' _]. congruence.
  - exfalso. destruct (SL q _ Hq Hl) as [_ E]. rewrite E in Hx. destruct Hx.
Qed.

Lemma choice_nodup g f A B : inv l [] g f A B -> forall c, In c (cartesian (map r_S (A ++ B))) -> NoDup (flat_map p_ls c) /\ forall p, In p c -> exists r, In r (A ++ B) /\ In p (r_S r).
Proof.
  intros J c Hc. apply cartesian_in in Hc. pose proof (results_nodup _ _ _ _ J) as N.
  assert (X : forall rs c, NoDup (map r_s rs) -> incl rs (A ++ B) -> Forall2 (fun a x => In a x) c (map r_S rs) -> NoDup (flat_map p_ls c) /\ forall p, In p c -> exists r, In r rs /\ In p (r_S r)).
  { clear c Hc N. induction rs as [|r rs IH]; intros c N I F; cbn in F; inversion F as [|p ? c' ? H1 H2]; subst; [split; [constructor|intros p []]|].
    cbn in N. inversion N as [|? ? N1 N2]; subst. destruct (IH c' N2 ltac:(intros x Hx; apply I; now right) H2) as [IH1 IH2]. assert (Hr : In r (A ++ B)) by (apply I; now left). split.
    - cbn. destruct (i_at _ _ _ _ _ _ J r Hr) as [[_ _ SP _] _]. destruct (SP p H1) as [_ Op]. pose proof (out_nodup g (p_id p) (i_wf _ _ _ _ _ _ J)) as ND. rewrite Op, map_map in ND. cbn in ND. rewrite map_id in ND.
      apply NoDup_app_intro; auto. intros x Hx Hx'. apply in_flat_map in Hx'. destruct Hx' as (q & Hq & Hx'). destruct (IH2 q Hq) as (r' & Hr' & Hq').
      assert (r = r') as <-; [|apply N1; now apply in_map]. apply (i_disj _ _ _ _ _ _ J r r' x); auto; try (apply I; now right); apply owned_cases; eauto.
    - intros q [<-|Hq]; [exists r; split; [now left|exact H1]|]. destruct (IH2 q Hq) as (r' & Hr' & Hq'). exists r'. split; [now right|exact Hq']. }
  apply (X (A ++ B) c N); [apply incl_refl|exact Hc].
Qed.

Lemma distribute_spec g f A B : b = false -> inv l [] g f A B -> exists h f' T, distribute n up (g, f) = Some (h, f') /\ post g0 f0 (IIn b n l) up h f' f T.
Proof.
  intros Eb J. pose proof (i_wf _ _ _ _ _ _ J) as W. pose proof (i_bound _ _ _ _ _ _ J) as Bd. pose proof (i_fresh _ _ _ _ _ _ J) as Ff. pose proof n_bound as Bn.
  assert (NIn : In n (node_ids g)). { apply (i_nodes _ _ _ _ _ _ J). left. split; [apply (at_nodes _ _ (pr_at _ _ _ _ P0)); now left|]. intros H. now apply (n_fresh n H). }
  assert (X1 : ~ In f (node_ids g)) by (intros H; apply Bd in H; lia).
  assert (Upo : forall u, up = Some u -> u <> n /\ In u (node_ids g) /\ (forall r, In r (A ++ B) -> ~ In u (r_owned r)) /\ node_kind g u = node_kind g0 u /\ out g u = out g0 u).
  { intros u Eu. destruct (up_outside u Eu) as [H1 H2]. eapply outside; eauto. }
  destruct (node_new g f USum W X1) as (Wa & Na & Oa & Oa' & Ka & Fa). set (ga := add_node g f USum) in *.
  destruct (redirect_spec ga up n f Wa) as (g1 & E1 & W1 & N1 & K1 & F1 & U1); [apply Na; auto| |].
  { intros u Eu. destruct (Upo u Eu) as (_ & _ & _ & _ & E). rewrite sub_out, Oa, E, <- sub_out. destruct (pr_up _ _ _ _ P0 u Eu) as [_ H]. split; [exact H|]. intros H'. apply (sub_dst _ _ _ (pr_wf _ _ _ _ P0)), (pr_bound _ _ _ _ P0) in H'. lia. }
  assert (U1' : forall u lw, up = Some u -> In (n, lw) (out g0 u) -> out g1 u = filter (fun p => negb (fst p =? n)) (out g0 u) ++ [(f, lw)]).
  { intros u lw Eu Hl. destruct (Upo u Eu) as (_ & _ & _ & _ & E). rewrite <- E, <- (Oa u) in Hl |- *. now apply U1. }
  assert (Ulw : forall u, up = Some u -> exists lw, In (n, lw) (out g0 u)).
  { intros u Eu. destruct (pr_up _ _ _ _ P0 u Eu) as [_ H]. rewrite sub_out in H. apply in_map_iff in H. destruct H as ([x lw] & E & H). cbn in E. subst x. eauto. }
  assert (Fo : forall x, up <> Some x -> out g1 x = out g x) by (intros x Hx; rewrite F1, Oa; auto).
  assert (Ufil : forall u x, up = Some u -> In x (subcircuits g1 u) -> x <> n /\ (x = f \/ In x (subcircuits g u))).
  { intros u x Eu Hx. destruct (Ulw u Eu) as [lw Hl]. destruct (Upo u Eu) as (_ & _ & _ & _ & E). rewrite sub_out, (U1' u lw Eu Hl), map_app in Hx. apply in_app_iff in Hx. destruct Hx as [Hx|[<-|[]]].
    - apply in_map_iff in Hx. destruct Hx as (q & <- & Hq). apply filter_In in Hq. destruct Hq as [Hq1 Hq2]. apply negb_true_iff, Nat.eqb_neq in Hq2. split; [exact Hq2|]. right. rewrite sub_out, E. now apply in_map.
    - split; [cbn; lia|now left]. }
  assert (Udec : forall a, up = Some a \/ up <> Some a) by (intros a; clear; destruct up as [u|]; [destruct (Nat.eq_dec u a); [left|right]; congruence|right; discriminate]).
  assert (Non : forall a, ~ In n (subcircuits g1 a)).
  { intros a Ha. destruct (Udec a) as [Eu|Eu]; [now apply (Ufil a n Eu) in Ha|]. rewrite sub_out, Fo, <- sub_out in Ha by exact Eu. apply (inv_parent _ _ _ _ _ _ J) in Ha. contradiction. }
  assert (I1 : forall x, In x (node_ids g1) <-> In x (node_ids g) \/ x = f) by (intros x; rewrite N1; apply Na).
  destruct (node_gone g1 n W1 (proj2 (I1 n) (or_introl NIn)) Non) as (E2 & W2 & I2 & O2 & K2). set (g2 := drop_node g1 n) in *.
  assert (Ed : detach g1 up n = Some g2). { unfold detach. rewrite E2. destruct up; [|reflexivity]. now rewrite (proj2 (orphan_true g1 n) Non). }
  (* the region of the children is untouched *)
  assert (Rg : forall r x, In r (A ++ B) -> In x (r_owned r) -> x <> n /\ In x (node_ids g) /\ In x (node_ids g2) /\ node_kind g2 x = node_kind g x /\ out g2 x = out g x).
  { intros r x Hr Hx. assert (Hn : x <> n) by (intros ->; exact (n_not_owned _ _ _ _ _ _ J r Hr Hx)). assert (Hg : In x (node_ids g)) by (apply (i_nodes _ _ _ _ _ _ J); eauto).
    split; [exact Hn|]. split; [exact Hg|]. split; [apply I2; split; [apply I1; auto|exact Hn]|]. rewrite K2, O2, K1, Fa by (auto; intros ->; contradiction). split; [reflexivity|].
    apply Fo. intros Eu. now apply (proj1 (proj2 (proj2 (Upo x Eu))) r Hr). }
  assert (Es : subcircuits g n = map r_s (A ++ B)) by (rewrite sub_out, (out_results _ _ _ _ J), map_map; reflexivity).
  assert (Ec : cartesian (map (subcircuits g2) (map r_s (A ++ B))) = map (map p_id) (cartesian (map r_S (A ++ B)))).
  { rewrite <- cartesian_map, !map_map. f_equal. apply map_ext_in. intros r Hr. rewrite sub_out. destruct (Rg r (r_s r) Hr (res_root r)) as (_ & _ & _ & _ & ->).
    destruct (i_at _ _ _ _ _ _ J r Hr) as [[_ SO _ _] _]. rewrite SO, map_map. reflexivity. }
  set (CS := cartesian (map r_S (A ++ B))) in *. set (ls := fun u => subcircuits g u).
  assert (Lp : forall r p, In r (A ++ B) -> In p (r_S r) -> out g (p_id p) = map (fun l => (l, None)) (p_ls p) /\ ls (p_id p) = p_ls p).
  { intros r p Hr Hp. destruct (i_at _ _ _ _ _ _ J r Hr) as [[_ _ SP _] _]. destruct (SP p Hp) as [_ E]. split; [exact E|]. unfold ls. rewrite sub_out, E, map_map. cbn. apply map_id. }
  assert (Lc : forall c, In c CS -> flat_map ls (map p_id c) = flat_map p_ls c).
  { intros c Hc. rewrite !flat_map_concat_map, map_map. f_equal. apply map_ext_in. intros p Hp. destruct (choice_nodup _ _ _ _ J c Hc) as [_ H]. destruct (H p Hp) as (r & Hr & Hp'). now apply (Lp r). }
  destruct (combinations_spec ls f (map (map p_id) CS) g2 (S f) W2) as (g3 & T & E3 & W3 & Ti & Tf & Tn & Ts & Tp & Tk & To).
  { intros x Hx. apply I2 in Hx. destruct Hx as [Hx _]. apply I1 in Hx. destruct Hx as [Hx| ->]; [apply Bd in Hx; lia|lia]. }
  { apply I2. split; [apply I1; auto|lia]. }
  { intros c u Hc Hu. apply in_map_iff in Hc. destruct Hc as (c' & <- & Hc). apply in_map_iff in Hu. destruct Hu as (p & <- & Hp). destruct (choice_nodup _ _ _ _ J c' Hc) as [_ H]. destruct (H p Hp) as (r & Hr & Hp').
    destruct (Rg r (p_id p) Hr (part_owned r p Hp')) as (H1 & H2 & H3 & H4 & H5). split; [exact H3|]. split; [intros E; rewrite E in H2; contradiction|]. destruct (Lp r p Hr Hp') as [L1 L2]. rewrite H5, L1, L2. reflexivity. }
  { intros c Hc. apply in_map_iff in Hc. destruct Hc as (c' & <- & Hc). rewrite Lc by exact Hc. apply (choice_nodup _ _ _ _ J c' Hc). }
  assert (Tpart : forall t, In t T -> p_w t = Fin 1 /\ f < p_id t /\ exists c, In c CS /\ p_ls t = flat_map p_ls c).
  { intros t Ht. destruct (Forall2_in_r _ _ _ t Tf Ht) as (c' & Hc' & Hw & Hl). apply in_map_iff in Hc'. destruct Hc' as (c & <- & Hc). split; [exact Hw|]. split; [|exists c; rewrite <- Lc; auto].
    assert (H : In (p_id t) (map p_id T)) by (now apply in_map). rewrite Ti, in_seq in H. lia. }
  assert (Tleaf : forall t x, In t T -> In x (p_ls t) -> exists r p, In r (A ++ B) /\ In p (r_S r) /\ In x (p_ls p)).
  { intros t x Ht Hx. destruct (Tpart t Ht) as (_ & _ & c & Hc & E). rewrite E in Hx. apply in_flat_map in Hx. destruct Hx as (p & Hp & Hx). destruct (choice_nodup _ _ _ _ J c Hc) as [_ H]. destruct (H p Hp) as (r & Hr & Hp'). eauto. }
  assert (Tcov : forall r p x, In r (A ++ B) -> In p (r_S r) -> In x (p_ls p) -> exists t, In t T /\ In x (p_ls t)).
  { intros r p x Hr Hp Hx. destruct (cartesian_cover (map r_S (A ++ B)) (r_S r) p) as (c & Hc & Hpc); [|now apply in_map|exact Hp|].
    - intros y Hy. apply in_map_iff in Hy. destruct Hy as (r' & <- & Hr'). apply (i_at _ _ _ _ _ _ J r' Hr').
    - fold CS in Hc. destruct (Forall2_in_l _ _ _ (map p_id c) Tf) as (t & Ht & _ & E); [now apply in_map|]. exists t. split; [exact Ht|]. rewrite E, Lc by exact Hc. apply in_flat_map. eauto. }
  assert (Bg2 : forall x, In x (node_ids g) -> x < f) by exact Bd.
  (* who points into the regions now *)
  assert (Pred : forall a r x, In r (A ++ B) -> In x (r_owned r) -> In x (subcircuits g3 a) -> (exists t, In t T /\ a = p_id t /\ In x (p_ls t)) \/ (In a (r_owned r) /\ In x (subcircuits g a))).
  { intros a r x Hr Hx Ha. destruct (Rg r x Hr Hx) as (Hxn & Hxg & _). pose proof (Bd x Hxg) as Bx. pose proof (sub_src _ _ _ W3 Ha) as Han. apply Tn in Han. destruct Han as [Han|Han].
    - apply I2 in Han. destruct Han as [Han Hna]. apply I1 in Han. destruct Han as [Han| ->].
      + right. pose proof (Bd a Han) as Ba. rewrite sub_out, To, O2, <- sub_out in Ha by lia. assert (Hga : In x (subcircuits g a)).
        { destruct (Udec a) as [Eu|Eu].
          - destruct (Ufil a x Eu Ha) as [_ [->|H]]; [lia|exact H].
          - rewrite sub_out, Fo, <- sub_out in Ha by exact Eu. exact Ha. }
        split; [|exact Hga]. destruct (inv_closed _ _ _ _ _ _ J r a x Hr Hga Hx) as [H|[H _]]; [exact H|contradiction].
      + exfalso. rewrite sub_out, Ts, O2 in Ha by lia. assert (Ef : out g1 f = []). { rewrite Fo by (intros Eu; destruct (Upo f Eu) as (_ & H & _); contradiction). now apply out_none. }
        rewrite Ef in Ha. cbn [app] in Ha. rewrite map_map in Ha. apply in_map_iff in Ha. destruct Ha as (t & E & Ht). cbn in E. destruct (Tpart t Ht) as (_ & H & _). lia.
    - left. apply in_map_iff in Han. destruct Han as (t & <- & Ht). exists t. split; [exact Ht|]. split; [reflexivity|]. destruct (Tp t Ht) as [_ E]. rewrite sub_out, E, map_map in Ha. cbn in Ha. now rewrite map_id in Ha. }
  assert (R3 : forall r x, In r (A ++ B) -> In x (r_owned r) -> In x (node_ids g3) /\ node_kind g3 x = node_kind g x /\ out g3 x = out g x).
  { intros r x Hr Hx. destruct (Rg r x Hr Hx) as (H1 & H2 & H3 & H4 & H5). pose proof (Bd x H2). split; [apply Tn; auto|]. rewrite Tk, To by lia. auto. }
  (* the sums are removed *)
  assert (Pr : forall todo done h, done ++ todo = A ++ B -> without (flat_map gone_of done) g3 h ->
    exists h', foldM prune_orphan (map r_s todo) h = Some h' /\ without (flat_map gone_of (A ++ B)) g3 h').
  { induction todo as [|r todo IH]; intros done h Edt Hh; [rewrite app_nil_r in Edt; subst done; exists h; auto|].
    assert (Rin : In r (A ++ B)) by (rewrite <- Edt; apply in_app_iff; right; now left).
    assert (Din : forall r', In r' done -> In r' (A ++ B)) by (intros r' H; rewrite <- Edt; apply in_app_iff; auto).
    assert (Rnd : forall x, In x (r_owned r) -> ~ In x (flat_map gone_of done)).
    { intros x Hx Hg. apply in_flat_map in Hg. destruct Hg as (r' & Hr' & Hg). assert (r = r') as <- by (apply (i_disj _ _ _ _ _ _ J r r' x); auto using gone_owned).
      pose proof (results_nodup _ _ _ _ J) as NR. rewrite <- Edt, map_app in NR. cbn [map] in NR. apply NoDup_remove_2 in NR. apply NR, in_app_iff. left. now apply in_map. }
    assert (Oh : forall x, In x (r_owned r) -> out h x = out g x) by (intros x Hx; rewrite (wo_out _ _ _ Hh x (Rnd x Hx)); now apply (R3 r)).
    assert (Ih : In (r_s r) (node_ids h)) by (apply (wo_nodes _ _ _ Hh); split; [apply (R3 r); auto using res_root|apply Rnd, res_root]).
    assert (Sr : subcircuits h (r_s r) = map p_id (r_S r)). { rewrite sub_out, Oh by apply res_root. destruct (i_at _ _ _ _ _ _ J r Rin) as [[_ SO _ _] _]. rewrite SO, map_map. reflexivity. }
    assert (No : forall a, ~ In (r_s r) (subcircuits h a)).
    { intros a Ha. apply (without_sub _ _ _ _ _ W3 Hh) in Ha. destruct Ha as [Ha _]. destruct (Pred a r (r_s r) Rin (res_root r) Ha) as [(t & Ht & -> & Hx)|[H1 H2]]; [|exact (region_root _ _ _ _ _ _ J Rin H1 H2)].
      destruct (Tleaf t _ Ht Hx) as (r' & p & Hr' & Hp & Hx'). exact (leaf_not_root _ _ _ _ r' r p _ J Hr' Rin Hp Hx' eq_refl). }
    cbn [map foldM]. unfold prune_orphan at 1. rewrite (proj2 (orphan_true h (r_s r)) No).
    assert (Len : exists k, length (g_nodes h) = S k). { unfold node_ids in Ih. destruct (g_nodes h) as [|q m]; [destruct Ih|]. eexists. reflexivity. }
    destruct Len as [k ->].
    destruct (prune_two k h (r_s r) (wo_wf _ _ _ Hh) Ih No) as (h' & E' & Hh').
    - intros p' a Hp' Ha. rewrite Sr in Hp'. apply in_map_iff in Hp'. destruct Hp' as (p & <- & Hp). apply (without_sub _ _ _ _ _ W3 Hh) in Ha. destruct Ha as [Ha _].
      destruct (Pred a r (p_id p) Rin (part_owned r p Hp) Ha) as [(t & Ht & -> & Hx)|[H1 H2]]; [|exact (region_part _ _ _ _ _ _ _ J Rin Hp H1 H2)].
      exfalso. destruct (Tleaf t _ Ht Hx) as (r' & q & Hr' & Hq & Hx'). exact (leaf_not_part _ _ _ _ r' r q p _ J Hr' Rin Hq Hx' Hp eq_refl).
    - intros p' v Hp' Hv. rewrite Sr in Hp'. apply in_map_iff in Hp'. destruct Hp' as (p & <- & Hp). rewrite sub_out, Oh in Hv by (now apply part_owned). destruct (Lp r p Rin Hp) as [L1 _]. rewrite L1, map_map in Hv. cbn in Hv. rewrite map_id in Hv.
      destruct (Tcov r p v Rin Hp Hv) as (t & Ht & Hx). destruct (Tpart t Ht) as (_ & Bt & _). exists (p_id t).
      assert (Ng : forall r' x, In r' (A ++ B) -> In x (r_owned r') -> p_id t <> x) by (intros r' x Hr' Hx' E; destruct (Rg r' x Hr' Hx') as (_ & H & _); apply Bd in H; lia).
      split; [apply (Ng r); auto using res_root|]. split; [rewrite Sr; intros H; apply in_map_iff in H; destruct H as (q & E & Hq); apply (Ng r (p_id q)); auto using part_owned|].
      apply (without_sub _ _ _ _ _ W3 Hh). split; [rewrite sub_out; destruct (Tp t Ht) as [_ ->]; rewrite map_map; cbn; now rewrite map_id|].
      intros H. apply in_flat_map in H. destruct H as (r' & Hr' & H). apply (Ng r' (p_id t)); auto using gone_owned.
    - rewrite E'. apply (IH (done ++ [r])); [rewrite <- app_assoc; exact Edt|]. rewrite flat_map_app. cbn [flat_map]. rewrite app_nil_r. apply (without_trans _ _ g3 h); [exact Hh|]. rewrite Sr in Hh'. exact Hh'. }
  destruct (Pr (A ++ B) [] g3 eq_refl) as (g4 & E4 & H4).
  { constructor; auto. intros x. cbn. tauto. }
  clear Pr. destruct H4 as [W4 N4 O4 K4].
  assert (Gn : forall x, In x (flat_map gone_of (A ++ B)) -> exists r, In r (A ++ B) /\ In x (gone_of r)) by (intros x H; now apply in_flat_map in H).
  assert (Gs : forall x, ~ In x (node_ids g) -> ~ In x (flat_map gone_of (A ++ B))). { intros x Hx H. apply Gn in H. destruct H as (r & Hr & H). apply Hx. apply (Rg r); auto using gone_owned. }
  assert (Gl : forall r p x, In r (A ++ B) -> In p (r_S r) -> In x (p_ls p) -> ~ In x (flat_map gone_of (A ++ B))).
  { intros r p x Hr Hp Hx H. apply Gn in H. destruct H as (r' & Hr' & [E|H]); [apply (leaf_not_root _ _ _ _ r r' p x J); auto|]. apply in_map_iff in H. destruct H as (q & E & Hq). apply (leaf_not_part _ _ _ _ r r' p q x J); auto. }
  assert (Gt : forall t, In t T -> ~ In (p_id t) (flat_map gone_of (A ++ B))) by (intros t Ht; apply Gs; intros H; apply Bd in H; destruct (Tpart t Ht) as (_ & H' & _); lia).
  assert (Ofs : out g4 f = map (fun p => (p_id p, Some (p_w p))) T).
  { rewrite O4 by (now apply Gs). rewrite Ts, O2 by lia. rewrite Fo by (intros Eu; destruct (Upo f Eu) as (_ & H & _); contradiction). rewrite (out_none g f W X1). reflexivity. }
  assert (Kfs : node_kind g4 f = Some USum) by (rewrite K4 by (now apply Gs); rewrite Tk, K2, K1 by lia; exact Ka).
  assert (Lf : forall t x, In t T -> In x (p_ls t) -> node_kind g4 x = node_kind g x /\ out g4 x = [] /\ exists d, node_kind g x = Some (ULeaf d)).
  { intros t x Ht Hx. destruct (Tleaf t x Ht Hx) as (r & p & Hr & Hp & Hx'). assert (Hw : In x (r_owned r)) by (apply owned_cases; eauto). rewrite K4, O4 by (eapply Gl; eauto). destruct (R3 r x Hr Hw) as (_ & -> & ->).
    destruct (i_at _ _ _ _ _ _ J r Hr) as [[_ _ _ SL] _]. destruct (SL p x Hp Hx') as [H1 H2]. auto. }
  assert (Out : forall x, In x (node_ids g0) -> ~ In x (ids (IIn b n l)) -> In x (node_ids g4) /\ node_kind g4 x = node_kind g0 x /\ out g4 x = out g1 x).
  { intros x Hx Hi. destruct (outside _ _ _ _ _ J Hx Hi) as (H1 & H2 & H3 & H4 & H5). pose proof (Bd x H2) as Bx.
    assert (Y : ~ In x (flat_map gone_of (A ++ B))) by (intros H; apply Gn in H; destruct H as (r & Hr & H); apply (H3 r Hr), gone_owned, H).
    rewrite N4, K4, O4, Tn, I2, I1, Tk, To, K2, O2, K1, Fa by (auto; lia). auto 8. }
  exists g4, (S f + length (map (map p_id) CS)), T. split.
  { unfold distribute. fold ga. rewrite E1, Ed, Es, Ec. fold CS. rewrite E3, E4. reflexivity. }
  constructor.
  - exact W4.
  - intros x Hx. apply N4 in Hx. destruct Hx as [Hx _]. apply Tn in Hx. destruct Hx as [Hx|Hx].
    + apply I2 in Hx. destruct Hx as [Hx _]. apply I1 in Hx. destruct Hx as [Hx| ->]; [apply Bd in Hx|]; lia.
    + rewrite Ti, in_seq in Hx. lia.
  - lia.
  - constructor; auto.
    + intros t Ht. rewrite K4, O4 by auto. now apply Tp.
    + intros t x Ht Hx. destruct (Lf t x Ht Hx) as (-> & H2 & H3). auto.
  - intros ->. inversion Tf as [Ex|]. symmetry in Ex. apply map_eq_nil in Ex. assert (Ne : exists c, In c CS).
    { unfold CS. assert (Hne : forall y, In y (map r_S (A ++ B)) -> y <> []) by (intros y Hy; apply in_map_iff in Hy; destruct Hy as (r' & <- & Hr'); apply (i_at _ _ _ _ _ _ J r' Hr')).
      clear - Hne. induction (map r_S (A ++ B)) as [|z m IH]; [exists []; now left|]. destruct IH as [c Hc]; [intros w Hw; apply Hne; now right|].
      destruct z as [|q z]; [exfalso; apply (Hne []); cbn; auto|]. exists (q :: c). cbn. apply in_app_iff. left. now apply in_map. }
    destruct Ne as [c Hc]. rewrite Ex in Hc. destruct Hc.
  - rewrite Eb. cbn [iflat]. rewrite parts_eq, map_map. cbn [snd].
    set (F := fun c : list (num * list (option D)) => (Fin 1, concat (map snd c))).
    assert (Y1 : reads g4 T = map F (cartesian (map (fun r => reads g (r_S r)) (A ++ B)))).
    { unfold reads at 2. rewrite <- (map_map r_S (map (fun p => (p_w p, map (leaf_dist g) (p_ls p))))), cartesian_map, map_map. fold CS. unfold reads.
      transitivity (map (fun t => (Fin 1, map (leaf_dist g) (p_ls t))) T).
      { apply map_ext_in. intros t Ht. destruct (Tpart t Ht) as (-> & _ & _). f_equal. apply map_ext_in. intros x Hx. unfold leaf_dist. destruct (Lf t x Ht Hx) as (-> & _). reflexivity. }
      clear - Tf Lc. assert (X : forall cs T, (forall c, In c cs -> flat_map ls (map p_id c) = flat_map p_ls c) -> Forall2 (fun c t => p_w t = Fin 1 /\ p_ls t = flat_map ls c) (map (map p_id) cs) T ->
        map (fun t => (Fin 1, map (leaf_dist g) (p_ls t))) T = map (fun c => F (map (fun p => (p_w p, map (leaf_dist g) (p_ls p))) c)) cs).
      { clear. induction cs as [|c cs IH]; intros T Lc F2; cbn in F2; inversion F2 as [|? t ? T' [H1 H2] H3]; subst; [reflexivity|]. cbn [map]. f_equal; [|apply IH; auto; intros; apply Lc; now right].
        unfold F. f_equal. rewrite H2, Lc by (now left). rewrite map_map. cbn. rewrite flat_map_concat_map, concat_map, map_map. reflexivity. }
      now apply X. }
    rewrite Y1. clear Y1.
    assert (Y2 : map (fun r => reads g (r_S r)) (A ++ B) = map (map (fun x : num * list D => (fst x, map Some (snd x)))) (map (fun c => iflat (snd c)) parts_of)).
    { pose proof (results_read _ _ _ _ J) as R. clear - R. induction R as [|c r cs rs [_ H] _ IH]; [reflexivity|]. cbn. rewrite H, IH. reflexivity. }
    rewrite Y2, cartesian_map, map_map. unfold flagged. rewrite map_map. apply map_ext. intros c. unfold F. cbn. f_equal. rewrite concat_map, !map_map. reflexivity.
  - intros x Hx. apply owned_cases in Hx. destruct Hx as [->|[(t & Ht & ->)|(t & Ht & Hx)]]; [right; exact Ff| |].
    + right. destruct (Tpart t Ht) as (_ & H & _). lia.
    + destruct (Tleaf t x Ht Hx) as (r & p & Hr & Hp & Hx'). destruct (i_owned _ _ _ _ _ _ J r x Hr) as [H|H]; [apply owned_cases; eauto|left; now right|now right].
  - rewrite Eb. exact Ff.
  - intros x. split.
    + intros Hx. pose proof Hx as Hx4. apply N4 in Hx. destruct Hx as [Hx Hg]. apply Tn in Hx. destruct Hx as [Hx|Hx].
      * apply I2 in Hx. destruct Hx as [Hx Hxn]. apply I1 in Hx. destruct Hx as [Hx| ->]; [|right; apply owned_cases; auto]. apply (i_nodes _ _ _ _ _ _ J) in Hx. destruct Hx as [[H1 H2]|(r & Hr & Hx)].
        -- left. split; [exact H1|]. intros [H|H]; [now apply Hxn|contradiction].
        -- right. apply owned_cases. right. right. apply owned_cases in Hx. destruct Hx as [->|[(p & Hp & ->)|(p & Hp & Hx)]].
           ++ exfalso. apply Hg, in_flat_map. exists r. split; [exact Hr|now left].
           ++ exfalso. apply Hg, in_flat_map. exists r. split; [exact Hr|right; now apply in_map].
           ++ destruct (Tcov r p x Hr Hp Hx) as (t & Ht & Hx'). eauto.
      * right. apply in_map_iff in Hx. destruct Hx as (t & <- & Ht). apply owned_cases. eauto.
    + intros [[H1 H2]|Hx]; [now apply Out|]. apply owned_cases in Hx. destruct Hx as [->|[(t & Ht & ->)|(t & Ht & Hx)]].
      * eapply node_kind_ids; eauto.
      * apply N4. split; [apply Tn; right; now apply in_map|now apply Gt].
      * destruct (Lf t x Ht Hx) as (H1 & _ & d & H2). rewrite H2 in H1. eapply node_kind_ids; eauto.
  - intros x Hx Hi Hu. destruct (Out x Hx Hi) as (_ & H1 & H2). split; [exact H1|]. rewrite H2, Fo by exact Hu. apply (outside _ _ _ _ _ J Hx Hi).
  - intros u Eu. destruct (up_outside u Eu) as [H1 H2]. destruct (Out u H1 H2) as (_ & K & O). split; [exact K|]. rewrite Eb. cbn [is_isum iroot]. intros lw Hl. rewrite O. now apply U1'.
Qed.
End Kids.

Lemma good_sum n l : Forall (fun c => good (snd c)) l -> good (IIn true n l).
Proof.
  intros HG fuel g f up Hf P. destruct fuel as [|fuel]; [cbn in Hf; lia|]. cbn [iheight] in Hf. destruct (pr_at _ _ _ _ P) as (K & O & _). cbn [shallowing fst iroot]. rewrite K.
  destruct (kids_all true n l g f up P fuel HG ltac:(lia)) as (g1 & f1 & A & B & E & J).
  replace (subcircuits g n) with (map (fun c => iroot (snd c)) l) by (rewrite sub_out, O, map_map; reflexivity). rewrite E.
  destruct (lift_all true n l g f up P _ _ _ _ J) as (h & Eh & _).
  assert (Es : subcircuits g1 n = map r_s (A ++ B)). { rewrite sub_out, (out_results _ _ _ _ _ _ _ _ J), map_map. reflexivity. }
  rewrite Es, Eh. exists h, f1, n, (flat_map lifted (A ++ B)). split; [reflexivity|]. eapply lift_post; eauto.
Qed.

Lemma good_prod n l : Forall (fun c => good (snd c)) l -> good (IIn false n l).
Proof.
  intros HG fuel g f up Hf P. destruct fuel as [|fuel]; [cbn in Hf; lia|]. cbn [iheight] in Hf. destruct (pr_at _ _ _ _ P) as (K & O & _). cbn [shallowing fst iroot]. rewrite K.
  destruct (kids_all false n l g f up P fuel HG ltac:(lia)) as (g1 & f1 & A & B & E & J).
  replace (subcircuits g n) with (map (fun c => iroot (snd c)) l) by (rewrite sub_out, O, map_map; reflexivity). rewrite E.
  destruct (distribute_spec false n l g f up P _ _ _ _ eq_refl J) as (h & f' & T & Eh & Q). rewrite Eh. eauto 8.
Qed.

(** ** Every tree *)
Theorem good_all t : good t.
Proof. induction t as [n d|b n l IH] using it_ind'; [apply good_leaf|]. destruct b; [now apply good_sum|now apply good_prod]. Qed.

End Tree.
