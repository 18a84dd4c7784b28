(** * ConditionalEventFacts: the sum unit over conditional circuits

    Proof file. *)
From Coq Require Import List Arith Bool Lia Reals Lra.
From Verif Require Import Num Graph GraphFacts Spec SpecFacts Circuit EvalFacts TreeProb Simplify SimplifyFacts TreeLocal NormalizeFacts Restrict Rename Interaction InteractionFacts Mounting MountTree Conditional Heap ConditionalEvent.
Import ListNotations.
Local Set Bullet Behavior "Strict Subproofs".
Local Open Scope nat_scope.

Section Facts.
Context {D : Type}.
Implicit Types g q acc : graph D.

Lemma shift_same k g : same_as (fun x => x + k) g (shift k g).
Proof.
  constructor.
  - intros x y. unfold id. lia.
  - reflexivity.
  - intros e' He. unfold shift in He. cbn [g_edges] in He. apply in_map_iff in He. destruct He as (e & <- & He). exists e. split; [exact He|reflexivity].
  - intros u. unfold out_edges, shift. cbn [g_edges]. induction (g_edges g) as [|e l IH]; [reflexivity|]. cbn [map filter e_src].
    destruct (Nat.eqb_spec (e_src e + k) (u + k)) as [E|E], (Nat.eqb_spec (e_src e) u) as [E'|E']; try (exfalso; unfold id in *; lia); [cbn [map]; f_equal; exact IH|exact IH].
Qed.

Lemma shift_ids k g x : In x (node_ids (shift k g)) <-> exists y, In y (node_ids g) /\ x = y + k.
Proof. rewrite (ren_node_ids _ _ _ (shift_same k g)), in_map_iff. split; intros (y & A & B); exists y; auto. Qed.

Lemma shift_wf k g : wf g -> wf (shift k g).
Proof.
  intros [N E S T]. constructor.
  - rewrite (ren_node_ids _ _ _ (shift_same k g)). apply FinFun.Injective_map_NoDup; [|exact N]. intros x y. unfold id. lia.
  - unfold shift. cbn [g_edges]. rewrite map_map. cbn [e_src e_dst]. rewrite <- (map_map (fun e => (e_src e, e_dst e)) (fun p => (fst p + k, snd p + k))).
    apply FinFun.Injective_map_NoDup; [|exact E]. intros [x y] [x' y'] H. cbn in H. inversion H. f_equal; unfold id in *; lia.
  - intros e He. unfold shift in He. cbn [g_edges] in He. apply in_map_iff in He. destruct He as (e0 & <- & He). apply shift_ids. cbn. eauto.
  - intros e He. unfold shift in He. cbn [g_edges] in He. apply in_map_iff in He. destruct He as (e0 & <- & He). apply shift_ids. cbn. eauto.
Qed.

Lemma shift_reach k g u v : reach g u v -> reach (shift k g) (u + k) (v + k).
Proof.
  induction 1 as [|x e Hx IH He Es]; [constructor|]. subst x.
  apply (reach_step (shift k g) (u + k) (e_src e + k) (mkEdge (e_src e + k) (e_dst e + k) (e_lw e))); [exact IH| |reflexivity].
  unfold shift. cbn [g_edges]. apply in_map_iff. exists e. auto.
Qed.

(** ** The loop *)
Definition place := (nat * graph D * id * num)%type.
Definition place_edge (p : place) : edge := let '(k, _, r, lp) := p in mkEdge 0 (r + k) (Some lp).

Record laid_out acc (ps : list place) : Prop := {
  lo_wf : wf acc;
  lo_zero : node_kind acc 0 = Some USum;
  lo_out : out_edges acc 0 = map place_edge ps;
  lo_in : forall k q r lp x, In (k, q, r, lp) ps -> In x (node_ids q) ->
    In (x + k) (node_ids acc) /\ node_kind acc (x + k) = node_kind q x /\ out_edges acc (x + k) = map (ren_edge (fun y => y + k)) (out_edges q x);
  lo_ids : forall y, In y (node_ids acc) -> y = 0 \/ exists k q r lp x, In (k, q, r, lp) ps /\ In x (node_ids q) /\ y = x + k;
  lo_tree : forall k q r lp, In (k, q, r, lp) ps -> tree_shaped q r /\ 0 < k;
  lo_lv : exists lv : id -> nat, lv 0 = 0 /\ forall e, In e (g_edges acc) -> lv (e_dst e) = S (lv (e_src e));
  lo_one : forall e e', In e (g_edges acc) -> In e' (g_edges acc) -> e_dst e = e_dst e' -> e_src e = e_src e'
}.

Lemma laid_out_nil : laid_out (mkGraph [(0, USum)] []) [].
Proof.
  constructor; cbn.
  - constructor; cbn; repeat constructor; tauto.
  - reflexivity.
  - reflexivity.
  - tauto.
  - intros y [<-|[]]. now left.
  - tauto.
  - exists (fun _ => 0). split; [reflexivity|tauto].
  - tauto.
Qed.

Lemma list_max_In x l : In x l -> x <= list_max l.
Proof. intros H. pose proof (proj1 (list_max_le l (list_max l)) (le_n _)) as HL. rewrite Forall_forall in HL. auto. Qed.

Lemma edge_of g e : In e (g_edges g) -> In e (out_edges g (e_src e)).
Proof. intros H. apply out_edges_In. auto. Qed.

Lemma mount_part_step acc ps vs q r lp st v : laid_out acc ps -> tree_shaped q r -> st r = Some v ->
  exists acc' k, mount_part (acc, vs) (Some q, lp, st) = Some (acc', vs ++ [(lp, v)]) /\ laid_out acc' (ps ++ [(k, q, r, lp)]).
Proof.
  intros L T Hv. pose proof T as [Wq [Aq [Rq [Nq [Allq Topq]]]]]. unfold mount_part. rewrite (tree_root _ _ T), Hv.
  set (k := S (list_max (node_ids acc))).
  assert (Hk : forall x, In x (node_ids acc) -> x < k) by (intros x Hx; apply list_max_In in Hx; unfold k; lia).
  assert (Hr : In (r + k) (node_ids (shift k q))) by (apply shift_ids; eauto).
  assert (Em : embeds (shift k q) acc).
  { intros x Hx Hg. exfalso. apply shift_ids in Hx. destruct Hx as (y & _ & ->). apply Hk in Hg. unfold id in *. lia. }
  destruct (mount_spec acc (shift k q) (r + k) (lo_wf _ _ L) (shift_wf k q Wq) Hr Em) as (g' & M1 & M2 & M3 & M4 & M5).
  rewrite M1. exists (add_edge g' 0 (r + k) (Some lp)), k. split; [reflexivity|].
  assert (Z0 : In 0 (node_ids acc)) by (eapply node_kind_ids; apply (lo_zero _ _ L)).
  assert (Hq' : forall x, In x (node_ids q) -> In (x + k) (node_ids g')).
  { intros x Hx. apply M3. right. apply shift_reach. apply root_reaches_all; auto. now apply tree_root. }
  assert (Hr' : forall y, reach (shift k q) (r + k) y -> exists x, In x (node_ids q) /\ y = x + k).
  { intros y Hy. apply shift_ids. destruct Hy as [|x e _ He _]; [exact Hr|]. now apply (wf_dst _ (shift_wf k q Wq)). }
  destruct (M4 0 Z0) as [K0 O0].
  assert (Oz : out_edges (add_edge g' 0 (r + k) (Some lp)) 0 = map place_edge (ps ++ [(k, q, r, lp)])).
  { rewrite add_edge_out, Nat.eqb_refl, O0, (lo_out _ _ L), map_app. apply addl_absent. intros X. apply in_map_iff in X. destruct X as (e & E1 & E2).
    rewrite <- (lo_out _ _ L) in E2. apply out_edges_In in E2. destruct E2 as [E2 _]. apply (wf_dst _ (lo_wf _ _ L)) in E2. rewrite E1 in E2. apply Hk in E2. unfold id in *. lia. }
  assert (Ox : forall x, In x (node_ids acc) -> x <> 0 -> out_edges (add_edge g' 0 (r + k) (Some lp)) x = out_edges acc x).
  { intros x Hx Hn. rewrite add_edge_out. destruct (Nat.eqb_spec x 0); [congruence|]. now apply M4. }
  assert (On : forall x, In x (node_ids q) -> node_kind (add_edge g' 0 (r + k) (Some lp)) (x + k) = node_kind q x /\
      out_edges (add_edge g' 0 (r + k) (Some lp)) (x + k) = map (ren_edge (fun y => y + k)) (out_edges q x)).
  { intros x Hx. rewrite add_edge_kind, add_edge_out. destruct (Nat.eqb_spec (x + k) 0) as [E|_]; [unfold k in E; lia|].
    destruct (M5 (x + k)) as [A B]; [apply shift_ids; eauto|now apply Hq'|]. rewrite A, B. split; [apply (ren_node_kind _ _ _ (shift_same k q))|apply (sa_out _ _ _ (shift_same k q))]. }
  assert (W : wf (add_edge g' 0 (r + k) (Some lp))) by (apply add_edge_wf; [exact M2|apply M3; now left|now apply Hq']).
  (* where the edges come from *)
  assert (Ed : forall e, In e (g_edges (add_edge g' 0 (r + k) (Some lp))) ->
     (In e (g_edges acc)) \/ e = mkEdge 0 (r + k) (Some lp) \/ exists e0, In e0 (g_edges q) /\ e = ren_edge (fun y => y + k) e0).
  { intros e He. pose proof (wf_src _ W e He) as Hs. rewrite add_edge_ids in Hs. apply edge_of in He. apply M3 in Hs. destruct Hs as [Hs|Hs].
    - destruct (Nat.eq_dec (e_src e) 0) as [E|E].
      + rewrite E, Oz, map_app in He. apply in_app_iff in He. destruct He as [He|[<-|[]]]; [|now right; left].
        left. rewrite <- (lo_out _ _ L) in He. apply out_edges_In in He. tauto.
      + left. rewrite (Ox _ Hs E) in He. apply out_edges_In in He. tauto.
    - apply Hr' in Hs. destruct Hs as (x & Hx & E). rewrite E in He. destruct (On x Hx) as [_ B]. rewrite B in He. apply in_map_iff in He.
      destruct He as (e0 & <- & He). right; right. exists e0. split; [apply out_edges_In in He; tauto|reflexivity]. }
  constructor.
  - exact W.
  - rewrite add_edge_kind, K0. apply (lo_zero _ _ L).
  - exact Oz.
  - intros k' q' r' lp' x Hp Hx. rewrite add_edge_ids. apply in_app_iff in Hp. destruct Hp as [Hp|[Hp|[]]].
    + destruct (lo_in _ _ L _ _ _ _ x Hp Hx) as (A & B & C). destruct (lo_tree _ _ L _ _ _ _ Hp) as [_ Hk'].
      split; [apply M3; now left|]. rewrite add_edge_kind. destruct (M4 _ A) as [A1 A2]. split; [congruence|]. rewrite Ox; auto. unfold id in *. lia.
    + injection Hp as <- <- <- <-. split; [now apply Hq'|]. now apply On.
  - intros y Hy. rewrite add_edge_ids in Hy. apply M3 in Hy. destruct Hy as [Hy|Hy].
    + destruct (lo_ids _ _ L y Hy) as [->|(k' & q' & r' & lp' & x & A & B & C)]; [now left|]. right. exists k', q', r', lp', x. split; [apply in_app_iff; now left|auto].
    + right. apply Hr' in Hy. destruct Hy as (x & Hx & ->). exists k, q, r, lp, x. split; [apply in_app_iff; right; now left|auto].
  - intros k' q' r' lp' Hp. apply in_app_iff in Hp. destruct Hp as [Hp|[Hp|[]]]; [eapply (lo_tree _ _ L); eauto|]. injection Hp as <- <- <- <-. split; [exact T|unfold k; lia].
  - destruct (lo_lv _ _ L) as (lv & V0 & V1). destruct (tree_graded _ _ T) as (lq & Q0 & Q1).
    exists (fun y => if y <? k then lv y else S (lq (y - k))). split; [exact V0|]. intros e He.
    destruct (Ed e He) as [E|[->|(e0 & E & ->)]].
    + assert (A := Hk _ (wf_src _ (lo_wf _ _ L) e E)). assert (B := Hk _ (wf_dst _ (lo_wf _ _ L) e E)).
      destruct (Nat.ltb_spec (e_src e) k) as [_|X]; [|unfold id in *; lia]. destruct (Nat.ltb_spec (e_dst e) k) as [_|X]; [|unfold id in *; lia]. now apply V1.
    + cbn [e_src e_dst]. destruct (Nat.ltb_spec (r + k) k) as [X|_]; [unfold id in *; lia|]. replace (r + k - k) with r by (unfold id in *; lia). rewrite Q0. cbn. now rewrite V0.
    + cbn [e_src e_dst ren_edge]. destruct (Nat.ltb_spec (e_dst e0 + k) k) as [X|_]; [unfold id in *; lia|]. destruct (Nat.ltb_spec (e_src e0 + k) k) as [X|_]; [unfold id in *; lia|].
      rewrite !Nat.add_sub. rewrite (Q1 e0 E); [reflexivity|]. apply root_reaches_all; auto; [now apply tree_root|now apply (wf_src _ Wq)].
  - intros e e' He He' Hd. destruct (Ed e He) as [E|[->|(e0 & E & ->)]]; destruct (Ed e' He') as [E'|[->|(e1 & E' & ->)]]; cbn [e_src e_dst ren_edge] in *.
    + now apply (lo_one _ _ L).
    + exfalso. apply (wf_dst _ (lo_wf _ _ L)) in E. apply Hk in E. unfold id in *. lia.
    + exfalso. apply (wf_dst _ (lo_wf _ _ L)) in E. apply Hk in E. unfold id in *. lia.
    + exfalso. apply (wf_dst _ (lo_wf _ _ L)) in E'. apply Hk in E'. unfold id in *. lia.
    + reflexivity.
    + exfalso. apply Topq. apply in_map_iff. exists e1. split; [unfold id in *; lia|exact E'].
    + exfalso. apply (wf_dst _ (lo_wf _ _ L)) in E'. apply Hk in E'. unfold id in *. lia.
    + exfalso. apply Topq. apply in_map_iff. exists e0. split; [unfold id in *; lia|exact E].
    + f_equal. f_equal. apply (NoDup_map_unique e_dst (g_edges q)); auto. unfold id in *. lia.
Qed.

(** A conditional circuit that can be mounted: the circuit, its root, its tree, its log probability and the root's result. *)
Record item := mkItem { i_q : graph D; i_r : id; i_t : pc D; i_lp : R; i_v : num }.
Definition ready (part : option (graph D) * num * store num) (i : item) : Prop :=
  fst part = (Some (i_q i), Fin (i_lp i)) /\ snd part (i_r i) = Some (i_v i) /\ tree_circuit (i_q i) (i_r i) (i_t i).

Lemma mount_parts_loop parts is : Forall2 ready parts is -> forall acc ps vs, laid_out acc ps ->
  exists acc' ks, foldM mount_part parts (acc, vs) = Some (acc', vs ++ map (fun i => (Fin (i_lp i), i_v i)) is) /\
    Forall2 (fun i p => exists k, p = (k, i_q i, i_r i, Fin (i_lp i))) is ks /\ laid_out acc' (ps ++ ks).
Proof.
  induction 1 as [|[[oq lp] st] i parts is (H1 & H2 & H3) H IH]; intros acc ps vs L.
  - exists acc, []. cbn. rewrite !app_nil_r. auto.
  - cbn [fst snd] in *. injection H1 as -> ->. destruct (mount_part_step acc ps vs (i_q i) (i_r i) (Fin (i_lp i)) st (i_v i) L (tc_tree _ _ _ H3) H2) as (a1 & k & E1 & L1).
    cbn [foldM]. match goal with |- context [mount_part ?x ?y] => match type of E1 with ?a = _ => change (mount_part x y) with a end end. rewrite E1. destruct (IH a1 _ (vs ++ [(Fin (i_lp i), i_v i)]) L1) as (a2 & ks & E2 & F2 & L2). exists a2, ((k, i_q i, i_r i, Fin (i_lp i)) :: ks).
    rewrite E2. cbn [map]. rewrite <- !app_assoc in *. split; [reflexivity|]. split; [constructor; eauto|exact L2].
Qed.

(** ** Normalising the new sum unit *)
Definition reweigh (f : num -> num) (p : place) : place := let '(k, q, r, lp) := p in (k, q, r, f lp).

Lemma set_weights_edges u f g e : In e (g_edges (set_weights u f g)) -> exists e0, In e0 (g_edges g) /\ e_src e = e_src e0 /\ e_dst e = e_dst e0.
Proof.
  unfold set_weights. cbn [g_edges]. intros H. apply in_map_iff in H. destruct H as (e0 & <- & H). exists e0. split; [exact H|]. destruct (e_src e0 =? u); auto.
Qed.

Lemma set_weights_wf u f g : wf g -> wf (set_weights u f g).
Proof.
  intros [N E S T]. constructor; rewrite ?set_weights_ids; auto.
  - unfold set_weights. cbn [g_edges]. rewrite map_map. erewrite map_ext; [exact E|]. intros e. now destruct (e_src e =? u).
  - intros e He. apply set_weights_edges in He. destruct He as (e0 & A & -> & _). auto.
  - intros e He. apply set_weights_edges in He. destruct He as (e0 & A & _ & ->). auto.
Qed.

Lemma laid_out_weights f acc ps : laid_out acc ps -> laid_out (set_weights 0 f acc) (map (reweigh f) ps).
Proof.
  intros [W Z O I Ids T Lv One].
  assert (Inv : forall k q r lp, In (k, q, r, lp) (map (reweigh f) ps) -> exists lp0, In (k, q, r, lp0) ps).
  { intros k q r lp H. apply in_map_iff in H. destruct H as ([[[k0 q0] r0] lp0] & E & H). cbn in E. injection E as -> -> -> _. eauto. }
  constructor.
  - now apply set_weights_wf.
  - now rewrite set_weights_kind.
  - rewrite set_weights_out, Nat.eqb_refl, O, !map_map. apply map_ext. now intros [[[k q] r] lp].
  - intros k q r lp x Hp Hx. destruct (Inv _ _ _ _ Hp) as [lp0 Hp0]. destruct (I _ _ _ _ x Hp0 Hx) as (A & B & C). destruct (T _ _ _ _ Hp0) as [_ Hk].
    rewrite set_weights_ids, set_weights_kind, set_weights_out. destruct (Nat.eqb_spec (x + k) 0) as [X|_]; [unfold id in *; lia|]. auto.
  - intros y Hy. rewrite set_weights_ids in Hy. destruct (Ids y Hy) as [->|(k & q & r & lp & x & A & B & C)]; [now left|]. right. exists k, q, r, (f lp), x.
    split; [|auto]. apply in_map_iff. exists (k, q, r, lp). auto.
  - intros k q r lp Hp. destruct (Inv _ _ _ _ Hp) as [lp0 Hp0]. eapply T; eauto.
  - destruct Lv as (lv & V0 & V1). exists lv. split; [exact V0|]. intros e He. apply set_weights_edges in He. destruct He as (e0 & A & -> & ->). auto.
  - intros e e' He He'. apply set_weights_edges in He, He'. destruct He as (e0 & A & -> & ->), He' as (e1 & B & -> & ->). auto.
Qed.

(** ** The circuit that results *)
Lemma NoDup_dst (l : list edge) : NoDup (map (fun e => (e_src e, e_dst e)) l) -> (forall e e', In e l -> In e' l -> e_dst e = e_dst e' -> e_src e = e_src e') -> NoDup (map e_dst l).
Proof.
  induction l as [|e l IH]; intros H Hs; [constructor|]. cbn [map] in *. inversion H as [|? ? H1 H2]; subst. constructor.
  - intros X. apply H1. apply in_map_iff in X. destruct X as (e' & E & X). apply in_map_iff. exists e'. split; [|exact X]. f_equal; [|exact E]. apply Hs; [now right|now left|exact E].
  - apply IH; [exact H2|]. intros a b Ha Hb. apply Hs; now right.
Qed.

Lemma laid_out_tree acc ps : laid_out acc ps -> tree_shaped acc 0.
Proof.
  intros [W Z O I Ids T (lv & V0 & V1) One]. split; [exact W|]. split; [|split; [|split; [|split]]].
  - destruct (list_rank_bound lv (node_ids acc)) as [M HM]. exists (fun x => M - lv x). intros e He. pose proof (V1 e He) as E. pose proof (HM _ (wf_src _ W e He)). pose proof (HM _ (wf_dst _ W e He)). unfold id in *. lia.
  - eapply node_kind_ids; eauto.
  - apply NoDup_dst; [apply W|exact One].
  - intros y Hy Hn. destruct (Ids y Hy) as [->|(k & q & r & lp & x & A & B & ->)]; [congruence|]. destruct (T _ _ _ _ A) as [Tq Hk]. destruct (Nat.eq_dec x r) as [->|Hx].
    + apply in_map_iff. exists (mkEdge 0 (r + k) (Some lp)). split; [reflexivity|]. assert (X : In (mkEdge 0 (r + k) (Some lp)) (out_edges acc 0)) by (rewrite O; apply in_map_iff; exists (k, q, r, lp); auto).
      apply out_edges_In in X. tauto.
    + destruct Tq as [Wq [_ [_ [_ [Allq _]]]]]. specialize (Allq x B Hx). apply in_map_iff in Allq. destruct Allq as (e & Ee & He). destruct (I _ _ _ _ (e_src e) A (wf_src _ Wq e He)) as (_ & _ & C).
      apply in_map_iff. exists (ren_edge (fun y => y + k) e). split; [cbn; now rewrite Ee|]. assert (X : In (ren_edge (fun y => y + k) e) (out_edges acc (e_src e + k))) by (rewrite C; apply in_map; now apply edge_of).
      apply out_edges_In in X. tauto.
  - intros X. apply in_map_iff in X. destruct X as (e & E & He). pose proof (V1 e He) as V. rewrite E, V0 in V. discriminate.
Qed.

Lemma laid_out_unfolds acc ps k q r lp t : laid_out acc ps -> In (k, q, r, lp) ps -> unfolds q r t -> unfolds acc (r + k) t.
Proof.
  intros L Hp Hu. destruct (lo_tree _ _ L _ _ _ _ Hp) as [(Wq & _ & Rq & _) _].
  apply unfolds_agree with (g := shift k q); [now apply (ren_unfolds _ _ _ (shift_same k q))|].
  intros y Hy. assert (Hx : In y (node_ids (shift k q))).
  { destruct Hy as [|x e _ He _]; [apply shift_ids; eauto|]. now apply (wf_dst _ (shift_wf k q Wq)). }
  apply shift_ids in Hx. destruct Hx as (x & Hx & ->). destruct (lo_in _ _ L _ _ _ _ x Hp Hx) as (_ & B & C).
  rewrite B, C. split; [symmetry; apply (ren_node_kind _ _ _ (shift_same k q))|symmetry; apply (sa_out _ _ _ (shift_same k q))].
Qed.

Lemma laid_out_leaves acc ps : laid_out acc ps -> (forall k q r lp, In (k, q, r, lp) ps -> leaves_terminal q) -> leaves_terminal acc.
Proof.
  intros L H e d He K. pose proof (wf_src _ (lo_wf _ _ L) e He) as Hs. destruct (lo_ids _ _ L _ Hs) as [E|(k & q & r & lp & x & A & B & E)]; rewrite E in K.
  - rewrite (lo_zero _ _ L) in K. discriminate.
  - destruct (lo_in _ _ L _ _ _ _ x A B) as (_ & K' & O). apply edge_of in He. rewrite E, O in He. apply in_map_iff in He. destruct He as (e0 & _ & He). apply out_edges_In in He. destruct He as [He Ee].
    apply (H _ _ _ _ A e0 d He). rewrite Ee. congruence.
Qed.

Lemma laid_out_root acc ps ts : laid_out acc ps -> ps <> [] -> Forall2 (fun (p : place) (wt : num * pc D) => let '(k, q, r, lp) := p in fst wt = lp /\ unfolds q r (snd wt)) ps ts -> unfolds acc 0 (PSum ts).
Proof.
  intros L Hne H. apply unf_sum; [apply (lo_zero _ _ L)| |].
  - rewrite (lo_out _ _ L). destruct ps; [congruence|discriminate].
  - rewrite (lo_out _ _ L). assert (G : forall qs : list place, incl qs ps -> forall us, Forall2 (fun (p : place) (wt : num * pc D) => let '(k, q, r, lp) := p in fst wt = lp /\ unfolds q r (snd wt)) qs us ->
      Forall2 (fun e wt => e_lw e = Some (fst wt) /\ unfolds acc (e_dst e) (snd wt)) (map place_edge qs) us); [|apply (G ps (incl_refl ps) ts H)].
    intros qs Hi us F. induction F as [|[[[k q] r] lp] [w t] qs us [E U] F IH]; cbn [map]; constructor.
    + cbn in *. split; [congruence|]. eapply laid_out_unfolds; [exact L|apply Hi; now left|exact U].
    + apply IH. intros p Hp. apply Hi. now right.
Qed.

Lemma items_roots is ks f z : Forall2 (fun i p => exists k, p = (k, i_q i, i_r i, Fin (i_lp i))) is ks -> (forall i, In i is -> tree_circuit (i_q i) (i_r i) (i_t i)) -> (forall x, f (Fin x) = Fin (x - z)) ->
  Forall2 (fun (p : place) (wt : num * pc D) => let '(k, q, r, lp) := p in fst wt = lp /\ unfolds q r (snd wt)) (map (reweigh f) ks) (map (fun i => (Fin (i_lp i - z), i_t i)) is).
Proof.
  intros H Ht Hf. induction H as [|i p is ks (k & ->) H IH]; cbn [map]; constructor.
  - cbn. split; [now rewrite Hf|]. apply tc_unf. apply Ht. now left.
  - apply IH. intros j Hj. apply Ht. now right.
Qed.

Definition parted (part : option (graph D) * num * store num) (o : option item) : Prop :=
  match o with None => gt_ninf (snd (fst part)) = false | Some i => ready part i end.
Fixpoint somes {A} (l : list (option A)) : list A := match l with [] => [] | None :: l' => somes l' | Some a :: l' => a :: somes l' end.

Theorem mount_parts_correct parts os : Forall2 parted parts os ->
  (somes os = [] -> mount_parts parts = Some (None, NInf)) /\
  (somes os <> [] -> exists G z, mount_parts parts = Some (Some G, logsumexp (map (fun i => nadd (Fin (i_lp i)) (i_v i)) (somes os))) /\
     exp z = Rsum (map (fun i => exp (i_lp i)) (somes os)) /\ tree_circuit G 0 (PSum (map (fun i => (Fin (i_lp i - z), i_t i)) (somes os)))).
Proof.
  intros H. unfold mount_parts. set (l := filter (fun part => gt_ninf (snd (fst part))) parts). set (is := somes os).
  assert (F : Forall2 ready l is).
  { unfold l, is. clear l is. induction H as [|part o parts os Ho H IH]; [constructor|]. cbn [filter somes]. destruct o as [i|]; cbn [parted] in Ho.
    - destruct Ho as (E & H2). rewrite E. cbn [snd gt_ninf]. constructor; [split; assumption|exact IH].
    - rewrite Ho. exact IH. }
  clearbody l is. clear H. split; [intros ->; inversion F; reflexivity|]. intros Hne. destruct l as [|p0 l0] eqn:El; [inversion F; congruence|]. rewrite <- El in *.
  destruct (mount_parts_loop l is F _ [] [] laid_out_nil) as (acc & ks & E1 & Fk & L). cbn [app] in E1, L. rewrite E1.
  assert (Ht : forall i, In i is -> tree_circuit (i_q i) (i_r i) (i_t i)).
  { intros i Hi. destruct (Forall2_in_r _ _ _ _ F Hi) as (part & _ & R). apply R. }
  set (ws := map (fun i => Fin (i_lp i)) is).
  assert (Ow : map fst (map (fun e => match e_lw e with Some w => (w, e_dst e) | None => (NaN, e_dst e) end) (out_edges acc 0)) = ws).
  { rewrite (lo_out _ _ L). unfold ws. clear -Fk. induction Fk as [|i p is ks (k & ->) H IH]; [reflexivity|]. cbn [map place_edge e_lw fst]. f_equal. exact IH. }
  assert (Hl : log_weighted_subcircuits acc 0 = Some (map (fun e => match e_lw e with Some w => (w, e_dst e) | None => (NaN, e_dst e) end) (out_edges acc 0))).
  { unfold log_weighted_subcircuits. apply mapM_Forall2. rewrite (lo_out _ _ L). clear. induction ks as [|[[[k q] r] lp] ks IH]; cbn [map]; constructor; [reflexivity|exact IH]. }
  assert (Hpos : (0 < Rsum (map wexp ws))%R).
  { unfold ws. rewrite map_map. cbn [wexp]. destruct is as [|i is']; [congruence|]. cbn [map Rsum fold_right]. pose proof (exp_pos (i_lp i)).
    assert (0 <= Rsum (map (fun i => exp (i_lp i)) is'))%R by (apply Rsum_nonneg, Forall_map, Forall_forall; intros j _; left; apply exp_pos). unfold Rsum in *. lra. }
  assert (Hok : Forall lw_ok ws) by (unfold ws; apply Forall_map, Forall_forall; intros i _; exact I).
  destruct (logsumexp_weights ws Hok Hpos) as (z & Ez & Ez2).
  unfold sum_normalize. rewrite Hl. destruct (map (fun e => match e_lw e with Some w => (w, e_dst e) | None => (NaN, e_dst e) end) (out_edges acc 0)) as [|w0 lw] eqn:Em.
  { exfalso. rewrite <- Ow in Hpos. cbn in Hpos. lra. }
  rewrite <- Em in *. cbn zeta. rewrite Ow, Ez. set (f := fun w => nsub w (Fin z)). pose proof (laid_out_weights f acc ks L) as L'.
  destruct is as [|i is'] eqn:Eis; [congruence|]. rewrite <- Eis in *.
  unfold sum_log_forward. destruct (map (fun i => (Fin (i_lp i), i_v i)) is) as [|v0 vl] eqn:Ev; [rewrite Eis in Ev; discriminate|]. rewrite <- Ev. rewrite map_map. cbn [fst snd].
  exists (set_weights 0 f acc), z. split; [reflexivity|]. split; [rewrite Ez2; unfold ws; rewrite map_map, Eis; reflexivity|].
  constructor.
  - eapply laid_out_tree; eauto.
  - eapply laid_out_leaves; [exact L'|]. intros k q r lp Hp. apply in_map_iff in Hp. destruct Hp as ([[[k0 q0] r0] lp0] & E & Hp). cbn in E. injection E as -> -> -> _.
    destruct (Forall2_in_r _ _ _ _ Fk Hp) as (j & Hj & k1 & Ep). injection Ep as _ -> _ _. apply (tc_leaf _ _ _ (Ht j Hj)).
  - eapply laid_out_root; [exact L'| |].
    + intros X. apply map_eq_nil in X. subst ks. inversion Fk. congruence.
    + apply items_roots; auto.
  - unfold fin_sums. cbn [all_sums]. split.
    + rewrite map_map. cbn [fst]. apply Forall_map, Forall_forall. intros j _. exact I.
    + apply fold_and_Forall. apply Forall_map, Forall_forall. intros j Hj. apply (tc_fin _ _ _ (Ht j Hj)).
Qed.
End Facts.
