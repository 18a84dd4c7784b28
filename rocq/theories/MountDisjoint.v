(** * MountDisjoint: a sum unit over circuits that have no unit in common

    Proof file for C83; the same as [ConditionalEventFacts] for circuits that already consist of different objects. *)
From Coq Require Import List Arith Bool Lia Reals Lra.
From Verif Require Import Num Graph GraphFacts Spec SpecFacts Circuit EvalFacts TreeProb Simplify SimplifyFacts TreeLocal NormalizeFacts Restrict Rename
  Interaction InteractionFacts Mounting MountTree Conditional Heap ConditionalEvent ConditionalEventFacts.
Import ListNotations.
Local Set Bullet Behavior "Strict Subproofs".
Local Open Scope nat_scope.

Section Disjoint.
Context {D : Type}.
Variable s : id.
Implicit Types g q acc : graph D.

Definition dplace := (graph D * id * num)%type.
Definition dplace_edge (p : dplace) : edge := let '(_, r, lp) := p in mkEdge s r (Some lp).

Record laid acc (ps : list dplace) : Prop := {
  la_wf : wf acc;
  la_sum : node_kind acc s = Some USum;
  la_out : out_edges acc s = map dplace_edge ps;
  la_in : forall q r lp x, In (q, r, lp) ps -> In x (node_ids q) ->
    In x (node_ids acc) /\ node_kind acc x = node_kind q x /\ out_edges acc x = out_edges q x;
  la_ids : forall y, In y (node_ids acc) -> y = s \/ exists q r lp, In (q, r, lp) ps /\ In y (node_ids q);
  la_tree : forall q r lp, In (q, r, lp) ps -> tree_shaped q r /\ ~ In s (node_ids q);
  la_lv : exists lv : id -> nat, lv s = 0 /\ forall e, In e (g_edges acc) -> lv (e_dst e) = S (lv (e_src e));
  la_one : forall e e', In e (g_edges acc) -> In e' (g_edges acc) -> e_dst e = e_dst e' -> e_src e = e_src e'
}.

Lemma laid_nil : laid (mkGraph [(s, USum)] []) [].
Proof.
  constructor; cbn.
  - constructor; cbn; repeat constructor; tauto.
  - unfold node_kind. cbn. now rewrite Nat.eqb_refl.
  - reflexivity.
  - tauto.
  - intros y [<-|[]]. now left.
  - tauto.
  - exists (fun _ => 0). split; [reflexivity|tauto].
  - tauto.
Qed.

Lemma laid_step acc ps q r lp : laid acc ps -> tree_shaped q r -> (forall x, In x (node_ids q) -> ~ In x (node_ids acc)) ->
  exists acc', mount_root s acc q lp = Some (acc', r) /\ laid acc' (ps ++ [(q, r, lp)]) /\
    (forall x, In x (node_ids acc') <-> In x (node_ids acc) \/ In x (node_ids q)).
Proof.
  intros L T New. pose proof T as [Wq [Aq [Rq [Nq [Allq Topq]]]]]. unfold mount_root. rewrite (tree_root _ _ T).
  rewrite (remove_unreachable_id q r Wq Aq (tree_root _ _ T)).
  assert (Em : embeds q acc) by (intros x Hx Hg; exfalso; exact (New x Hx Hg)).
  destruct (add_circuit_spec acc q (la_wf _ _ L) Wq Em) as (M2 & M3 & M4 & M5). set (g' := add_circuit acc q) in *.
  exists (add_edge g' s r (Some lp)). split; [reflexivity|].
  assert (Z0 : In s (node_ids acc)) by (eapply node_kind_ids; apply (la_sum _ _ L)).
  assert (Zs : ~ In s (node_ids q)) by (intros X; exact (New s X Z0)).
  destruct (M4 s Z0) as [K0 O0].
  assert (Oz : out_edges (add_edge g' s r (Some lp)) s = map dplace_edge (ps ++ [(q, r, lp)])).
  { rewrite add_edge_out, Nat.eqb_refl, O0, (la_out _ _ L), map_app. apply addl_absent. intros X. apply in_map_iff in X. destruct X as (e & E1 & E2).
    rewrite <- (la_out _ _ L) in E2. apply out_edges_In in E2. destruct E2 as [E2 _]. apply (wf_dst _ (la_wf _ _ L)) in E2. rewrite E1 in E2. exact (New r Rq E2). }
  assert (Ox : forall x, In x (node_ids acc) -> x <> s -> out_edges (add_edge g' s r (Some lp)) x = out_edges acc x).
  { intros x Hx Hn. rewrite add_edge_out. destruct (Nat.eqb_spec x s); [congruence|]. now apply M4. }
  assert (On : forall x, In x (node_ids q) -> node_kind (add_edge g' s r (Some lp)) x = node_kind q x /\
      out_edges (add_edge g' s r (Some lp)) x = out_edges q x).
  { intros x Hx. rewrite add_edge_kind, add_edge_out. destruct (Nat.eqb_spec x s) as [->|_]; [contradiction|]. now apply M5. }
  assert (W : wf (add_edge g' s r (Some lp))) by (apply add_edge_wf; [exact M2|apply M3; now left|apply M3; now right]).
  assert (Ed : forall e, In e (g_edges (add_edge g' s r (Some lp))) ->
     (In e (g_edges acc)) \/ e = mkEdge s r (Some lp) \/ In e (g_edges q)).
  { intros e He. pose proof (wf_src _ W e He) as Hs. rewrite add_edge_ids in Hs. apply edge_of in He. apply M3 in Hs. destruct Hs as [Hs|Hs].
    - destruct (Nat.eq_dec (e_src e) s) as [E|E].
      + rewrite E, Oz, map_app in He. apply in_app_iff in He. destruct He as [He|[<-|[]]]; [|now right; left].
        left. rewrite <- (la_out _ _ L) in He. apply out_edges_In in He. tauto.
      + left. rewrite (Ox _ Hs E) in He. apply out_edges_In in He. tauto.
    - right; right. rewrite (proj2 (On _ Hs)) in He. apply out_edges_In in He. tauto. }
  split; [|intros x; rewrite add_edge_ids; apply M3]. constructor.
  - exact W.
  - rewrite add_edge_kind, K0. apply (la_sum _ _ L).
  - exact Oz.
  - intros q' r' lp' x Hp Hx. rewrite add_edge_ids. apply in_app_iff in Hp. destruct Hp as [Hp|[Hp|[]]].
    + destruct (la_in _ _ L _ _ _ x Hp Hx) as (A & B & C). destruct (la_tree _ _ L _ _ _ Hp) as [_ Hk'].
      split; [apply M3; now left|]. rewrite add_edge_kind. destruct (M4 _ A) as [A1 A2]. split; [congruence|]. rewrite Ox; auto. intros ->. contradiction.
    + injection Hp as <- <- <-. split; [apply M3; now right|]. now apply On.
  - intros y Hy. rewrite add_edge_ids in Hy. apply M3 in Hy. destruct Hy as [Hy|Hy].
    + destruct (la_ids _ _ L y Hy) as [->|(q' & r' & lp' & A & B)]; [now left|]. right. exists q', r', lp'. split; [apply in_app_iff; now left|auto].
    + right. exists q, r, lp. split; [apply in_app_iff; right; now left|auto].
  - intros q' r' lp' Hp. apply in_app_iff in Hp. destruct Hp as [Hp|[Hp|[]]]; [eapply (la_tree _ _ L); eauto|]. injection Hp as <- <- <-. auto.
  - destruct (la_lv _ _ L) as (lv & V0 & V1). destruct (tree_graded _ _ T) as (lq & Q0 & Q1).
    set (inq := fun y => existsb (Nat.eqb y) (node_ids q)).
    assert (Iq : forall y, In y (node_ids q) -> inq y = true) by (intros y Hy; apply existsb_exists; exists y; split; [exact Hy|apply Nat.eqb_refl]).
    assert (Ia : forall y, In y (node_ids acc) -> inq y = false).
    { intros y Hy. unfold inq. apply not_true_iff_false. intros X. apply existsb_exists in X. destruct X as (z & Hz & E). apply Nat.eqb_eq in E. subst z. exact (New y Hz Hy). }
    exists (fun y => if inq y then S (lq y) else lv y). split; [now rewrite (Ia s Z0)|]. intros e He.
    destruct (Ed e He) as [E|[->|E]].
    + rewrite (Ia _ (wf_src _ (la_wf _ _ L) e E)), (Ia _ (wf_dst _ (la_wf _ _ L) e E)). now apply V1.
    + cbn [e_src e_dst]. rewrite (Ia s Z0), (Iq r Rq), Q0, V0. reflexivity.
    + rewrite (Iq _ (wf_src _ Wq e E)), (Iq _ (wf_dst _ Wq e E)). rewrite (Q1 e E); [reflexivity|].
      apply root_reaches_all; auto; [now apply tree_root|now apply (wf_src _ Wq)].
  - intros e e' He He' Hd. destruct (Ed e He) as [E|[->|E]]; destruct (Ed e' He') as [E'|[->|E']]; cbn [e_src e_dst] in *.
    + now apply (la_one _ _ L).
    + exfalso. apply (wf_dst _ (la_wf _ _ L)) in E. rewrite Hd in E. exact (New r Rq E).
    + exfalso. apply (wf_dst _ (la_wf _ _ L)) in E. rewrite Hd in E. exact (New _ (wf_dst _ Wq _ E') E).
    + exfalso. apply (wf_dst _ (la_wf _ _ L)) in E'. rewrite <- Hd in E'. exact (New r Rq E').
    + reflexivity.
    + exfalso. apply Topq. apply in_map_iff. exists e'. auto.
    + exfalso. apply (wf_dst _ (la_wf _ _ L)) in E'. rewrite <- Hd in E'. exact (New _ (wf_dst _ Wq _ E) E').
    + exfalso. apply Topq. apply in_map_iff. exists e. auto.
    + f_equal. apply (NoDup_map_unique e_dst (g_edges q)); auto.
Qed.

Definition dreweigh (f : num -> num) (p : dplace) : dplace := let '(q, r, lp) := p in (q, r, f lp).

Lemma laid_weights f acc ps : laid acc ps -> laid (set_weights s f acc) (map (dreweigh f) ps).
Proof.
  intros [W Z O I Ids T Lv One].
  assert (Inv : forall q r lp, In (q, r, lp) (map (dreweigh f) ps) -> exists lp0, In (q, r, lp0) ps).
  { intros q r lp H. apply in_map_iff in H. destruct H as ([[q0 r0] lp0] & E & H). cbn in E. injection E as -> -> _. eauto. }
  constructor.
  - now apply set_weights_wf.
  - now rewrite set_weights_kind.
  - rewrite set_weights_out, Nat.eqb_refl, O, !map_map. apply map_ext. now intros [[q r] lp].
  - intros q r lp x Hp Hx. destruct (Inv _ _ _ Hp) as [lp0 Hp0]. destruct (I _ _ _ x Hp0 Hx) as (A & B & C). destruct (T _ _ _ Hp0) as [_ Hk].
    rewrite set_weights_ids, set_weights_kind, set_weights_out. destruct (Nat.eqb_spec x s) as [->|_]; [contradiction|]. auto.
  - intros y Hy. rewrite set_weights_ids in Hy. destruct (Ids y Hy) as [->|(q & r & lp & A & B)]; [now left|]. right. exists q, r, (f lp).
    split; [|auto]. apply in_map_iff. exists (q, r, lp). auto.
  - intros q r lp Hp. destruct (Inv _ _ _ Hp) as [lp0 Hp0]. eapply T; eauto.
  - destruct Lv as (lv & V0 & V1). exists lv. split; [exact V0|]. intros e He. apply set_weights_edges in He. destruct He as (e0 & A & -> & ->). auto.
  - intros e e' He He'. apply set_weights_edges in He, He'. destruct He as (e0 & A & -> & ->), He' as (e1 & B & -> & ->). auto.
Qed.

Lemma laid_tree acc ps : laid acc ps -> tree_shaped acc s.
Proof.
  intros [W Z O I Ids T (lv & V0 & V1) One]. split; [exact W|]. split; [|split; [|split; [|split]]].
  - destruct (list_rank_bound lv (node_ids acc)) as [M HM]. exists (fun x => M - lv x). intros e He. pose proof (V1 e He) as E. pose proof (HM _ (wf_src _ W e He)). pose proof (HM _ (wf_dst _ W e He)). unfold id in *. lia.
  - eapply node_kind_ids; eauto.
  - apply NoDup_dst; [apply W|exact One].
  - intros y Hy Hn. destruct (Ids y Hy) as [->|(q & r & lp & A & B)]; [congruence|]. destruct (T _ _ _ A) as [Tq Hk]. destruct (Nat.eq_dec y r) as [->|Hx].
    + apply in_map_iff. exists (mkEdge s r (Some lp)). split; [reflexivity|]. assert (X : In (mkEdge s r (Some lp)) (out_edges acc s)) by (rewrite O; apply in_map_iff; exists (q, r, lp); auto).
      apply out_edges_In in X. tauto.
    + destruct Tq as [Wq [_ [_ [_ [Allq _]]]]]. specialize (Allq y B Hx). apply in_map_iff in Allq. destruct Allq as (e & Ee & He). destruct (I _ _ _ (e_src e) A (wf_src _ Wq e He)) as (_ & _ & C).
      apply in_map_iff. exists e. split; [exact Ee|]. assert (X : In e (out_edges acc (e_src e))) by (rewrite C; now apply edge_of).
      apply out_edges_In in X. tauto.
  - intros X. apply in_map_iff in X. destruct X as (e & E & He). pose proof (V1 e He) as V. rewrite E, V0 in V. discriminate.
Qed.

Lemma laid_unfolds acc ps q r lp t : laid acc ps -> In (q, r, lp) ps -> unfolds q r t -> unfolds acc r t.
Proof.
  intros L Hp Hu. destruct (la_tree _ _ L _ _ _ Hp) as [(Wq & _ & Rq & _) _].
  apply unfolds_agree with (g := q); [exact Hu|].
  intros y Hy. assert (Hx : In y (node_ids q)).
  { destruct Hy as [|x e _ He _]; [exact Rq|]. now apply (wf_dst _ Wq). }
  now destruct (la_in _ _ L _ _ _ y Hp Hx) as (_ & B & C).
Qed.

Lemma laid_leaves acc ps : laid acc ps -> (forall q r lp, In (q, r, lp) ps -> leaves_terminal q) -> leaves_terminal acc.
Proof.
  intros L H e d He K. pose proof (wf_src _ (la_wf _ _ L) e He) as Hs. destruct (la_ids _ _ L _ Hs) as [E|(q & r & lp & A & B)].
  - rewrite E, (la_sum _ _ L) in K. discriminate.
  - destruct (la_in _ _ L _ _ _ _ A B) as (_ & K' & O). apply edge_of in He. rewrite O in He. apply out_edges_In in He. destruct He as [He Ee].
    apply (H _ _ _ A e d He). congruence.
Qed.

Lemma laid_root acc ps ts : laid acc ps -> ps <> [] -> Forall2 (fun (p : dplace) (wt : num * pc D) => let '(q, r, lp) := p in fst wt = lp /\ unfolds q r (snd wt)) ps ts -> unfolds acc s (PSum ts).
Proof.
  intros L Hne H. apply unf_sum; [apply (la_sum _ _ L)| |].
  - rewrite (la_out _ _ L). destruct ps; [congruence|discriminate].
  - rewrite (la_out _ _ L). assert (G : forall qs : list dplace, incl qs ps -> forall us, Forall2 (fun (p : dplace) (wt : num * pc D) => let '(q, r, lp) := p in fst wt = lp /\ unfolds q r (snd wt)) qs us ->
      Forall2 (fun e wt => e_lw e = Some (fst wt) /\ unfolds acc (e_dst e) (snd wt)) (map dplace_edge qs) us); [|apply (G ps (incl_refl ps) ts H)].
    intros qs Hi us F. induction F as [|[[q r] lp] [w t] qs us [E U] F IH]; cbn [map]; constructor.
    + cbn in *. split; [congruence|]. eapply laid_unfolds; [exact L|apply Hi; now left|exact U].
    + apply IH. intros p Hp. apply Hi. now right.
Qed.

Definition item_place (i : item) : dplace := (i_q i, i_r i, Fin (i_lp i)).

(** Normalising the sum unit over the circuits of [is]. *)
Lemma laid_normalize acc (is : list item) : laid acc (map item_place is) -> is <> [] ->
  (forall i, In i is -> tree_circuit (i_q i) (i_r i) (i_t i)) ->
  exists G z, sum_normalize acc s = Some G /\ exp z = Rsum (map (fun i => exp (i_lp i)) is) /\
    tree_circuit G s (PSum (map (fun i => (Fin (i_lp i - z), i_t i)) is)).
Proof.
  intros L Hne Ht. set (ws := map (fun i : item (D := D) => Fin (i_lp i)) is).
  assert (Ow : map fst (map (fun e => match e_lw e with Some w => (w, e_dst e) | None => (NaN, e_dst e) end) (out_edges acc s)) = ws).
  { rewrite (la_out _ _ L). unfold ws. rewrite !map_map. apply map_ext. reflexivity. }
  assert (Hl : log_weighted_subcircuits acc s = Some (map (fun e => match e_lw e with Some w => (w, e_dst e) | None => (NaN, e_dst e) end) (out_edges acc s))).
  { unfold log_weighted_subcircuits. apply mapM_Forall2. rewrite (la_out _ _ L). clear. induction is as [|i is IH]; cbn [map]; constructor; [reflexivity|exact IH]. }
  assert (Hpos : (0 < Rsum (map wexp ws))%R).
  { unfold ws. rewrite map_map. cbn [wexp]. destruct is as [|i is']; [congruence|]. cbn [map Rsum fold_right]. pose proof (exp_pos (i_lp i)).
    assert (0 <= Rsum (map (fun i => exp (i_lp i)) is'))%R by (apply Rsum_nonneg, Forall_map, Forall_forall; intros j _; left; apply exp_pos). unfold Rsum in *. lra. }
  assert (Hok : Forall lw_ok ws) by (unfold ws; apply Forall_map, Forall_forall; intros i _; exact I).
  destruct (logsumexp_weights ws Hok Hpos) as (z & Ez & Ez2).
  unfold sum_normalize. rewrite Hl. destruct (map (fun e => match e_lw e with Some w => (w, e_dst e) | None => (NaN, e_dst e) end) (out_edges acc s)) as [|w0 lw] eqn:Em.
  { exfalso. rewrite <- Ow in Hpos. cbn in Hpos. lra. }
  rewrite <- Em in *. cbn zeta. rewrite Ow, Ez. set (f := fun w => nsub w (Fin z)). pose proof (laid_weights f acc _ L) as L'.
  exists (set_weights s f acc), z. split; [reflexivity|]. split; [rewrite Ez2; unfold ws; now rewrite map_map|].
  constructor.
  - eapply laid_tree; eauto.
  - eapply laid_leaves; [exact L'|]. intros q r lp Hp. rewrite map_map in Hp. apply in_map_iff in Hp. destruct Hp as (j & E & Hj). cbn in E. injection E as <- _ _.
    apply (tc_leaf _ _ _ (Ht j Hj)).
  - eapply laid_root; [exact L'| |].
    + destruct is; [congruence|discriminate].
    + clear - Ht f. induction is as [|i is IH]; cbn [map]; constructor.
      * cbn. split; [reflexivity|]. apply tc_unf. apply Ht. now left.
      * apply IH. intros j Hj. apply Ht. now right.
  - unfold fin_sums. cbn [all_sums]. split.
    + rewrite map_map. cbn [fst]. apply Forall_map, Forall_forall. intros j _. exact I.
    + apply fold_and_Forall. apply Forall_map, Forall_forall. intros j Hj. apply (tc_fin _ _ _ (Ht j Hj)).
Qed.
End Disjoint.
