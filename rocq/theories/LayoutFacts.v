(** * LayoutFacts: a laid-out tree is a tree-shaped circuit that unfolds to the tree

    Proof file. *)
From Coq Require Import List Arith Bool Lia Reals.
From Verif Require Import Num Graph GraphFacts Spec SpecFacts Circuit EvalFacts Layout.
Import ListNotations.
Local Open Scope nat_scope.

Section Lay.
Context {D : Type}.

Definition laid (n : id) (x : list (id * ukind D) * list edge * id) : Prop :=
  let '(ns, es, m) := x in
  n < m /\ map fst ns = seq n (m - n) /\ map e_dst es = seq (S n) (m - S n) /\ Forall (fun e => n <= e_src e < e_dst e) es.

Lemma lay_children_spec {A} (f : A -> id -> list (id * ukind D) * list edge * id) w p l :
  (forall a n, In a l -> laid n (f a n)) -> forall n, p < n ->
  let '(ns, es, m) := lay_children f w p l n in
  n <= m /\ map fst ns = seq n (m - n) /\ map e_dst es = seq n (m - n) /\
  Forall (fun e => (e_src e = p \/ n <= e_src e) /\ e_src e < e_dst e) es.
Proof.
  induction l as [|a l IH]; intros HL n Hp; cbn [lay_children].
  - rewrite Nat.sub_diag. cbn. auto.
  - specialize (HL a n (or_introl eq_refl)) as Ha. destruct (f a n) as [[ns es] n1]. destruct Ha as (L1 & N1 & E1 & F1).
    fold (@lay_children D A f w p) in *.
    assert (IH' := IH (fun b k Hb => HL b k (or_intror Hb)) n1 ltac:(lia)). destruct (lay_children f w p l n1) as [[ns' es'] m].
    destruct IH' as (L2 & N2 & E2 & F2). split; [lia|]. cbn [map]. rewrite !map_app, N1, N2, E1, E2.
    replace (m - n) with ((n1 - n) + (m - n1)) by lia. rewrite seq_app. replace (n + (n1 - n)) with n1 by lia.
    split; [reflexivity|]. split.
    + replace (n1 - n) with (S (n1 - S n)) by lia. reflexivity.
    + constructor; [cbn; lia|]. apply Forall_app. split.
      * eapply Forall_impl; [|exact F1]. cbn. lia.
      * eapply Forall_impl; [|exact F2]. cbn. lia.
Qed.

Lemma lay_spec (t : pc D) : forall n, laid n (lay t n).
Proof.
  induction t as [d|l IH|l IH] using pc_ind'; intros n; cbn [lay].
  - unfold laid. replace (S n - n) with 1 by lia. replace (S n - S n) with 0 by lia. cbn. repeat split; auto.
  - rewrite Forall_forall in IH.
    pose proof (lay_children_spec (fun wt => lay (snd wt)) (fun wt => Some (fst wt)) n l (fun a k Ha => IH a Ha k) (S n) (Nat.lt_succ_diag_r n)) as H.
    destruct (lay_children _ _ n l (S n)) as [[ns es] m]. destruct H as (L & N & E & F).
    split; [lia|]. cbn [map fst]. rewrite N, E. split; [|split; [reflexivity|]].
    + replace (m - n) with (S (m - S n)) by lia. reflexivity.
    + eapply Forall_impl; [|exact F]. cbn. lia.
  - rewrite Forall_forall in IH.
    pose proof (lay_children_spec lay (fun _ => None) n l (fun a k Ha => IH a Ha k) (S n) (Nat.lt_succ_diag_r n)) as H.
    destruct (lay_children _ _ n l (S n)) as [[ns es] m]. destruct H as (L & N & E & F).
    split; [lia|]. cbn [map fst]. rewrite N, E. split; [|split; [reflexivity|]].
    + replace (m - n) with (S (m - S n)) by lia. reflexivity.
    + eapply Forall_impl; [|exact F]. cbn. lia.
Qed.

Lemma layout_tree (t : pc D) : tree_shaped (layout t) 0.
Proof.
  unfold layout. pose proof (lay_spec t 0) as H. destruct (lay t 0) as [[ns es] m]. destruct H as (L & N & E & F).
  rewrite Nat.sub_0_r in N.
  assert (DST : forall e, In e es -> 1 <= e_dst e < m).
  { intros e He. assert (In (e_dst e) (seq 1 (m - 1))) as X by (rewrite <- E; now apply in_map). apply in_seq in X. lia. }
  rewrite Forall_forall in F. unfold tree_shaped, node_ids. cbn. rewrite N, E. split; [|split; [|split; [|split; [|split]]]].
  - constructor; unfold node_ids; cbn; rewrite ?N.
    + apply seq_NoDup.
    + apply (NoDup_map_inv snd). rewrite map_map. cbn. change (fun x : edge => e_dst x) with e_dst. rewrite E. apply seq_NoDup.
    + intros e He. apply in_seq. specialize (F e He). specialize (DST e He). lia.
    + intros e He. apply in_seq. specialize (DST e He). lia.
  - exists (fun u => m - u). cbn. intros e He. specialize (F e He). specialize (DST e He). lia.
  - apply in_seq. lia.
  - apply seq_NoDup.
  - intros u Hu Nu. apply in_seq in Hu. apply in_seq. lia.
  - rewrite in_seq. lia.
Qed.

(** ** Unfolding *)

Definition kind_in (ns : list (id * ukind D)) (u : id) : option (ukind D) := node_kind (mkGraph ns []) u.

Lemma kind_in_graph g u : node_kind g u = kind_in (g_nodes g) u.
Proof. reflexivity. Qed.

Lemma kind_in_app ns ns' u : kind_in (ns ++ ns') u = match kind_in ns u with Some k => Some k | None => kind_in ns' u end.
Proof.
  unfold kind_in, node_kind. cbn. induction ns as [|[x k] ns IH]; [reflexivity|]. cbn. destruct (x =? u); [reflexivity|exact IH].
Qed.

Lemma kind_in_none ns u : ~ In u (map fst ns) -> kind_in ns u = None.
Proof.
  unfold kind_in, node_kind. cbn. induction ns as [|[x k] ns IH]; [reflexivity|]. cbn. intros N.
  destruct (Nat.eqb_spec x u) as [->|_]; [tauto|]. apply IH. tauto.
Qed.

Lemma kind_in_some ns u : In u (map fst ns) -> kind_in ns u <> None.
Proof.
  unfold kind_in, node_kind. cbn. induction ns as [|[x k] ns IH]; [intros []|]. cbn.
  destruct (Nat.eqb_spec x u) as [->|N]; [discriminate|]. intros [E|H]; [congruence|]. now apply IH.
Qed.

Definition outs (es : list edge) (u : id) : list edge := filter (fun e => e_src e =? u) es.

Lemma outs_app es es' u : outs (es ++ es') u = outs es u ++ outs es' u.
Proof. apply filter_app. Qed.

Lemma outs_none es u : Forall (fun e => e_src e <> u) es -> outs es u = [].
Proof.
  induction 1 as [|e es N _ IH]; [reflexivity|]. cbn. destruct (Nat.eqb_spec (e_src e) u); [congruence|exact IH].
Qed.

(** The part of [g] with the identifiers [lo..hi) is given by [ns] and [es]. *)
Definition agrees (g : graph D) (ns : list (id * ukind D)) (es : list edge) (lo hi : nat) : Prop :=
  forall u, lo <= u < hi -> node_kind g u = kind_in ns u /\ out_edges g u = outs es u.

Lemma lay_children_unfolds {A} (tr : A -> pc D) (w : A -> option num) p (g : graph D) l :
  (forall a n, In a l -> forall ns es m, lay (tr a) n = (ns, es, m) -> agrees g ns es n m -> unfolds g n (tr a)) ->
  forall n ns es m, p < n -> lay_children (fun a => lay (tr a)) w p l n = (ns, es, m) -> agrees g ns es n m ->
  Forall2 (fun e a => e_lw e = w a /\ unfolds g (e_dst e) (tr a)) (outs es p) l.
Proof.
  induction l as [|a l IH]; intros HL n ns es m Hp E G; cbn [lay_children] in E.
  - injection E as <- <- <-. constructor.
  - pose proof (lay_spec (tr a) n) as Sa. destruct (lay (tr a) n) as [[ns1 es1] n1] eqn:Ea. destruct Sa as (L1 & N1 & E1 & F1).
    fold (@lay_children D A (fun a => lay (tr a)) w p) in E.
    pose proof (lay_children_spec (fun a => lay (tr a)) w p l (fun b k _ => lay_spec (tr b) k) n1 ltac:(lia)) as Sc.
    destruct (lay_children (fun a => lay (tr a)) w p l n1) as [[ns2 es2] n2] eqn:Ec. destruct Sc as (L2 & N2 & E2 & F2).
    injection E as <- <- <-. rewrite Forall_forall in F1, F2.
    assert (OUT1 : forall u, n1 <= u -> outs es1 u = []).
    { intros u Hu. apply outs_none. apply Forall_forall. intros e He. specialize (F1 e He).
      assert (In (e_dst e) (seq (S n) (n1 - S n))) as X by (rewrite <- E1; now apply in_map). apply in_seq in X. lia. }
    assert (OUTp : outs (mkEdge p n (w a) :: es1 ++ es2) p = mkEdge p n (w a) :: outs es2 p).
    { cbn. rewrite Nat.eqb_refl. f_equal. change (filter (fun e => e_src e =? p) (es1 ++ es2)) with (outs (es1 ++ es2) p).
      rewrite outs_app, outs_none; [reflexivity|]. apply Forall_forall. intros e He. specialize (F1 e He). lia. }
    rewrite OUTp. constructor.
    + split; [reflexivity|]. cbn. eapply HL; [now left|exact Ea|]. intros u Hu. destruct (G u) as [G1 G2]; [lia|].
      rewrite G1, G2. split.
      * rewrite kind_in_app. destruct (kind_in ns1 u) eqn:K; [reflexivity|]. exfalso. apply (kind_in_some ns1 u); [|exact K].
        rewrite N1. apply in_seq. lia.
      * cbn. destruct (Nat.eqb_spec p u); [lia|]. change (outs (es1 ++ es2) u = outs es1 u). rewrite outs_app, (outs_none es2 u).
        -- apply app_nil_r.
        -- apply Forall_forall. intros e He. specialize (F2 e He). lia.
    + apply (IH (fun b k Hb => HL b k (or_intror Hb)) n1 ns2 es2 n2 ltac:(lia) Ec).
      intros u Hu. destruct (G u) as [G1 G2]; [lia|]. rewrite G1, G2. split.
      * rewrite kind_in_app, kind_in_none; [reflexivity|]. rewrite N1, in_seq. lia.
      * cbn. destruct (Nat.eqb_spec p u); [lia|]. change (outs (es1 ++ es2) u = outs es2 u). rewrite outs_app, OUT1 by lia. reflexivity.
Qed.

Lemma Forall2_nonempty {A B} (R : A -> B -> Prop) l l' : Forall2 R l l' -> l' <> [] -> l <> [].
Proof. destruct 1; congruence. Qed.

Lemma lay_unfolds (g : graph D) t : sums_nonempty t -> forall n ns es m, lay t n = (ns, es, m) -> agrees g ns es n m -> unfolds g n t.
Proof.
  induction t as [d|l IH|l IH] using pc_ind'; intros NE n ns es m E G; cbn [lay] in E.
  - injection E as <- <- <-. constructor. destruct (G n) as [-> _]; [lia|]. unfold kind_in, node_kind. cbn. now rewrite Nat.eqb_refl.
  - destruct NE as [N0 NE]. rewrite Forall_map, Forall_forall in NE. rewrite Forall_forall in IH.
    pose proof (lay_children_spec (fun wt => lay (snd wt)) (fun wt : num * pc D => Some (fst wt)) n l (fun a k _ => lay_spec (snd a) k) (S n) (Nat.lt_succ_diag_r n)) as Sc.
    destruct (lay_children _ _ n l (S n)) as [[ns' es'] m'] eqn:Ec. injection E as <- <- <-. destruct Sc as (L & N & E2 & F).
    assert (O : out_edges g n = outs es' n) by (apply (G n); lia).
    assert (FF : Forall2 (fun e wt => e_lw e = Some (fst wt) /\ unfolds g (e_dst e) (snd wt)) (outs es' n) l).
    { eapply (lay_children_unfolds snd (fun wt => Some (fst wt)) n g l); [|apply Nat.lt_succ_diag_r|exact Ec|].
      - intros a k Ha ns0 es0 m0 E0 G0. eapply IH; eauto.
      - intros u Hu. destruct (G u) as [G1 G2]; [lia|]. rewrite G1, G2. split; [|reflexivity].
        unfold kind_in, node_kind. cbn. destruct (Nat.eqb_spec n u); [lia|reflexivity]. }
    constructor.
    + destruct (G n) as [-> _]; [lia|]. unfold kind_in, node_kind. cbn. now rewrite Nat.eqb_refl.
    + rewrite O. eapply Forall2_nonempty; eauto.
    + rewrite O. exact FF.
  - cbn in NE. rewrite Forall_map, Forall_forall in NE. rewrite Forall_forall in IH.
    pose proof (lay_children_spec lay (fun _ : pc D => None) n l (fun a k _ => lay_spec a k) (S n) (Nat.lt_succ_diag_r n)) as Sc.
    destruct (lay_children _ _ n l (S n)) as [[ns' es'] m'] eqn:Ec. injection E as <- <- <-. destruct Sc as (L & N & E2 & F).
    assert (O : out_edges g n = outs es' n) by (apply (G n); lia).
    assert (FF : Forall2 (fun e t => e_lw e = None /\ unfolds g (e_dst e) t) (outs es' n) l).
    { eapply (lay_children_unfolds (fun t => t) (fun _ => None) n g l); [|apply Nat.lt_succ_diag_r|exact Ec|].
      - intros a k Ha ns0 es0 m0 E0 G0. eapply IH; eauto.
      - intros u Hu. destruct (G u) as [G1 G2]; [lia|]. rewrite G1, G2. split; [|reflexivity].
        unfold kind_in, node_kind. cbn. destruct (Nat.eqb_spec n u); [lia|reflexivity]. }
    constructor.
    + destruct (G n) as [-> _]; [lia|]. unfold kind_in, node_kind. cbn. now rewrite Nat.eqb_refl.
    + rewrite O. clear - FF. induction FF as [|e t es l [_ A] _ IH]; constructor; auto.
Qed.

Lemma layout_unfolds (t : pc D) : sums_nonempty t -> unfolds (layout t) 0 t.
Proof.
  intros NE. unfold layout. destruct (lay t 0) as [[ns es] m] eqn:E. eapply (lay_unfolds _ t NE); [exact E|].
  intros u Hu. split; reflexivity.
Qed.

Lemma unfolds_kind (g : graph D) u t k : unfolds g u t -> node_kind g u = Some (ULeaf k) -> t = PLeaf k.
Proof. intros [v d K|v ts K _ _|v ts K _] K'; congruence. Qed.

Lemma lay_leaves_terminal t : forall n, let '(ns, es, m) := lay t n in
  forall e d, In e es -> kind_in ns (e_src e) <> Some (ULeaf (D := D) d).
Proof.
  assert (CH : forall A (tr : A -> pc D) w p k l, (forall a, In a l -> forall n, let '(ns, es, m) := lay (tr a) n in
      forall e d, In e es -> kind_in ns (e_src e) <> Some (ULeaf (D := D) d)) ->
    (forall d, k <> ULeaf (D := D) d) -> forall n, p < n -> let '(ns, es, m) := lay_children (fun a => lay (tr a)) w p l n in
      forall e d, In e es -> e_src e = p \/ kind_in ns (e_src e) <> Some (ULeaf (D := D) d)).
  { intros A tr w p k l. induction l as [|a l IH]; intros HL HK n Hp; cbn [lay_children]; [intros e d []|].
    fold (@lay_children D A (fun a => lay (tr a)) w p).
    pose proof (HL a (or_introl eq_refl) n) as Ha. pose proof (lay_spec (tr a) n) as Sa.
    destruct (lay (tr a) n) as [[ns1 es1] n1]. destruct Sa as (L1 & N1 & E1 & F1).
    specialize (IH (fun b Hb => HL b (or_intror Hb)) HK n1 ltac:(lia)).
    pose proof (lay_children_spec (fun a => lay (tr a)) w p l (fun b k _ => lay_spec (tr b) k) n1 ltac:(lia)) as Sc.
    destruct (lay_children (fun a => lay (tr a)) w p l n1) as [[ns2 es2] n2]. destruct Sc as (L2 & N2 & E2 & F2).
    rewrite Forall_forall in F1, F2.
    intros e d [<-|He]; [now left|]. apply in_app_iff in He. destruct He as [He|He].
    - right. specialize (F1 e He). assert (In (e_dst e) (seq (S n) (n1 - S n))) as X by (rewrite <- E1; now apply in_map).
      apply in_seq in X. rewrite kind_in_app. destruct (kind_in ns1 (e_src e)) eqn:K; [rewrite <- K; now apply Ha|].
      exfalso. apply (kind_in_some ns1 (e_src e)); [|exact K]. rewrite N1. apply in_seq. lia.
    - destruct (IH e d He) as [X|X]; [now left|]. destruct (F2 e He) as [[Y|Y] _]; [now left|]. right.
      rewrite kind_in_app, kind_in_none; [exact X|]. rewrite N1, in_seq. lia. }
  induction t as [d|l IH|l IH] using pc_ind'; intros n; cbn [lay].
  - intros e d0 [].
  - rewrite Forall_forall in IH. pose proof (CH _ snd (fun wt : num * pc D => Some (fst wt)) n USum l IH ltac:(discriminate) (S n) (Nat.lt_succ_diag_r n)) as X.
    pose proof (lay_children_spec (fun wt => lay (snd wt)) (fun wt : num * pc D => Some (fst wt)) n l (fun a k _ => lay_spec (snd a) k) (S n) (Nat.lt_succ_diag_r n)) as Sc.
    destruct (lay_children _ _ n l (S n)) as [[ns es] m]. destruct Sc as (_ & _ & _ & F). rewrite Forall_forall in F. intros e d He.
    unfold kind_in, node_kind. cbn. destruct (Nat.eqb_spec n (e_src e)) as [_|N]; [discriminate|].
    destruct (X e d He) as [Y|Y]; [congruence|exact Y].
  - rewrite Forall_forall in IH. pose proof (CH _ (fun t => t) (fun _ : pc D => None) n UProd l IH ltac:(discriminate) (S n) (Nat.lt_succ_diag_r n)) as X.
    change (fun a : pc D => lay a) with (@lay D) in X.
    destruct (lay_children _ _ n l (S n)) as [[ns es] m]. intros e d He.
    unfold kind_in, node_kind. cbn. destruct (Nat.eqb_spec n (e_src e)) as [_|N]; [discriminate|].
    destruct (X e d He) as [Y|Y]; [congruence|exact Y].
Qed.

Lemma layout_leaves_terminal (t : pc D) : leaves_terminal (layout t).
Proof.
  unfold layout. pose proof (lay_leaves_terminal t 0) as H. destruct (lay t 0) as [[ns es] m]. intros e d He. exact (H e d He).
Qed.
End Lay.

(** Trees of depth two: a weighted sum of products of leaves. *)
Section Sop.
Context {D : Type}.

Definition sop (l : list (num * list D)) : pc D := PSum (map (fun wl => (fst wl, PProd (map PLeaf (snd wl)))) l).

Lemma prod_leaves (P : D -> Prop) ds : all_leaves P (PProd (map PLeaf ds)) <-> Forall P ds.
Proof. cbn [all_leaves]. rewrite map_map. cbn [all_leaves]. apply fold_and_Forall. Qed.

Lemma sop_leaves P l : all_leaves P (sop l) <-> Forall (fun wl => Forall P (snd wl)) l.
Proof.
  unfold sop. cbn [all_leaves]. rewrite map_map. cbn [snd]. rewrite fold_and_Forall. split; intros H;
    (eapply Forall_impl; [|exact H]); intros wl; apply prod_leaves.
Qed.

Lemma sop_sums P l : all_sums P (sop l) <-> P (map fst l).
Proof.
  unfold sop. cbn [all_sums]. rewrite !map_map. cbn [fst snd]. split; [tauto|]. intros H. split; auto.
  apply fold_and_Forall. apply Forall_forall. intros wl _. cbn [all_sums]. rewrite map_map. apply fold_and_Forall.
  apply Forall_forall. intros d _. exact I.
Qed.

Lemma sop_sums_nonempty l : l <> [] -> sums_nonempty (sop l).
Proof.
  intros H. unfold sop. cbn [sums_nonempty]. split; [destruct l; [congruence|discriminate]|]. rewrite map_map. cbn [snd].
  apply Forall_map. apply Forall_forall. intros wl _. cbn [sums_nonempty]. rewrite map_map. apply Forall_map.
  apply Forall_forall. intros d _. exact I.
Qed.

Lemma sop_semR (val : D -> R) l : semR val (sop l) = Rsum (map (fun wl => (wexp (fst wl) * Rprod (map val (snd wl)))%R) l).
Proof.
  unfold sop. cbn [semR]. rewrite map_map. cbn [fst snd]. f_equal. apply map_ext. intros wl. cbn [semR]. now rewrite map_map.
Qed.

Lemma sop_mentions (dvars : D -> list nat) ds v : mentions dvars (PProd (map PLeaf ds)) v <-> In v (flat_map dvars ds).
Proof.
  cbn [mentions]. rewrite map_map. cbn [mentions]. rewrite fold_or_Exists, Exists_exists, in_flat_map. firstorder.
Qed.

Lemma sop_smooth (dvars : D -> list nat) vs l :
  Forall (fun wl => forall v, In v (flat_map dvars (snd wl)) <-> In v vs) l -> smooth dvars (sop l).
Proof.
  intros H. unfold sop. cbn [smooth]. split.
  - intros v Hv. cbn [mentions] in Hv. rewrite map_map in Hv. cbn [snd] in Hv. apply fold_or_Exists in Hv.
    apply Exists_exists in Hv. destruct Hv as (wl & Hin & Hv). apply sop_mentions in Hv.
    rewrite Forall_forall in H. apply H in Hv; auto. rewrite map_map. cbn [snd]. apply fold_and_Forall. apply Forall_forall.
    intros wl' H'. apply sop_mentions. now apply H.
  - rewrite map_map. cbn [snd]. apply fold_and_Forall. apply Forall_forall. intros wl _. cbn [smooth]. rewrite map_map.
    apply fold_and_Forall. apply Forall_forall. intros d _. exact I.
Qed.
End Sop.
