(** * HeapEvent: conditioning a circuit object on several simple sets

    Proof file for C83.  [h_conditionals] makes one new circuit object per simple set, [h_mount_all] puts a new sum unit on top
    of them.  The views of the new objects are the conditional circuits that [conditional_results] makes; their units are
    pairwise different, so that the sum unit stands for the mixture of these circuits. *)
From Coq Require Import List Arith Bool Lia Reals Lra.
From Verif Require Import Num Graph GraphFacts Spec SpecFacts Circuit EvalFacts VarFacts PropertiesQuery Interval Dist DistFacts
  TreeProb PropertiesProb Simplify SimplifyFacts TreeLocal DagFacts Conditional ConditionalFacts LeafCond CondBayes ConditionalEvent
  ConditionalEventFacts PropertiesConditional PropertiesSimplify PropertiesMarginal Rename Copy CopyFacts Heap HeapFacts HeapOps PropertiesConditionalEvent
  MoveFacts Relate HeapRefine RenameTree MountDisjoint.
Import ListNotations.
Local Open Scope nat_scope.
Local Set Bullet Behavior "Strict Subproofs".

(** ** Mounting does not look at the distributions *)

Section Mount.
Context {A B : Type}.
Variable R : A -> B -> Prop.
Let same := fun x : id => x.

Lemma grel_iter g g' : grel R same g g' -> edges_iter g' = edges_iter g.
Proof.
  intros G. unfold edges_iter. rewrite (grel_ids R same _ _ G). unfold same in *. rewrite map_id.
  induction (node_ids g) as [|x l IH]; [reflexivity|]. cbn [flat_map]. rewrite IH. f_equal. clear IH.
  rewrite (grel_out R (fun y => y) (fun _ _ X => X) g g' x G).
  rewrite <- (map_id (out_edges g x)) at 2. apply map_ext. apply ren_edge_id.
Qed.

Lemma grel_add_circuit acc acc' q q' : grel R same acc acc' -> grel R same q q' -> grel R same (add_circuit acc q) (add_circuit acc' q').
Proof.
  intros GA GQ. unfold add_circuit, unweighted_edges, log_weighted_edges. rewrite (grel_iter _ _ GQ).
  assert (E : forall (w : edge -> option num) l a a', grel R same a a' ->
    grel R same (fold_left (fun acc e => add_edge acc (e_src e) (e_dst e) (w e)) l a)
                (fold_left (fun acc e => add_edge acc (e_src e) (e_dst e) (w e)) l a')).
  { intros w l. induction l as [|e l IH]; intros a a' G; [exact G|]. cbn [fold_left]. apply IH.
    exact (grel_add_edge R same (fun _ _ X => X) a a' (e_src e) (e_dst e) (w e) G). }
  apply (E (fun e => e_lw e)). apply (E (fun _ => None)).
  destruct GQ as [N _]. revert acc acc' GA. induction N as [|p p' l l' [X K] _ IH]; intros acc acc' GA; [exact GA|]. cbn [fold_left].
  apply IH. rewrite X. exact (grel_add_node R same (fun _ _ X => X) acc acc' (fst p) (snd p) (snd p') GA K).
Qed.

Lemma grel_mount_root s acc acc' q q' lp : grel R same acc acc' -> grel R same q q' ->
  orel (fun x y => grel R same (fst x) (fst y) /\ snd x = snd y) (mount_root s acc q lp) (mount_root s acc' q' lp).
Proof.
  intros GA GQ. unfold mount_root. rewrite (grel_root R same (fun _ _ X => X) _ _ GQ). destruct (root q) as [r|]; cbn [option_map]; [|exact I].
  pose proof (grel_unreachable R same (fun _ _ X => X) q q' r GQ) as X. unfold same in *.
  destruct (remove_unreachable_nodes q r) as [sub|], (remove_unreachable_nodes q' r) as [sub'|]; cbn in X; try contradiction; [|exact I].
  cbn [orel fst snd]. split; [|reflexivity].
  exact (grel_add_edge R (fun x => x) (fun _ _ X => X) _ _ s r (Some lp) (grel_add_circuit _ _ _ _ GA X)).
Qed.
End Mount.

(** ** One simple set, with the results that the units keep *)

Lemma h_results_view e st H c g : circ_ok H c -> view H c = Some g -> wf g ->
  orel (fun x y => srel (cond_name H g) (snd x) (snd y) /\
                   match fst (fst x) with
                   | Some q => view (fst (fst (fst y))) (snd (fst (fst y))) = Some (rename (cond_name H g) q) /\ snd (fst y) = Some (snd (fst x))
                   | None => snd (fst y) = None
                   end)
       (conditional_results (fun d => leaf_cond d (e (dvar d))) g (fun u => st (cond_name H g u))) (h_conditional_simple e st H c).
Proof.
  intros K V W. pose proof (fun H' c' lp st' => h_conditional_simple_step e st H c H' c' lp st' K) as S.
  unfold conditional_results. unfold h_conditional_simple in *.
  set (f := cond_name H g) in *.
  assert (inj : forall x y, f x = f y -> x = y) by apply new_name_inj.
  assert (G : grel (reads H) f g (ref_graph H c)).
  { apply view_refs; [exact V|apply cond_name_old|]. intros x Hx. split; apply cond_name_old.
    - exact (wf_src _ W x Hx).
    - exact (wf_dst _ W x Hx). }
  rewrite (grel_bottom_up _ _ inj _ _ G) in *. destruct (bottom_up g) as [order|] eqn:EB; [|exact I]. cbn [option_map] in *.
  assert (L : Datatypes.S (list_max (node_ids g)) <= List.length (h_units H)).
  { apply list_max_lt; [exact (bottom_up_nonempty _ _ EB)|]. rewrite (view_ids H c g V). exact (proj1 (proj2 K)). }
  assert (P0 : prel f (g, (fun u => st (f u)), Datatypes.S (list_max (node_ids g))) (H, (ref_graph H c, st, List.length (h_units H)))).
  { split; [exact G|]. split; [intros x; reflexivity|]. now apply new_name_next. }
  pose proof (foldM_rel (prel f) f (unit_conditional (fun d => leaf_cond d (e (dvar d)))) (h_unit_conditional e) order
    (fun x y u _ => pass_step e f x y u inj) _ _ P0) as X.
  destruct (foldM (unit_conditional _) order _) as [[[g1 st1] nx1]|], (foldM (h_unit_conditional e) (map f order) _) as [[H1 [[g1' st1'] nx1']]|];
    cbn [orel] in X; try contradiction; [|exact I].
  destruct X as (G1 & S1 & _). cbn [fst snd] in *.
  pose proof (grel_finish _ f inj _ _ _ _ G1 S1) as Y.
  assert (Z : forall lp, conditional_finish g1' st1' = Some (None, lp) -> without_impossible g1' st1' <> None).
  { intros lp. unfold conditional_finish, without_impossible. destruct (root g1'); [|discriminate].
    destruct (bottom_up g1') as [o1|]; [|discriminate]. destruct (foldM remove_node _ g1'); [|discriminate]. discriminate. }
  destruct (conditional_finish g1 st1) as [[[q|] lp]|], (conditional_finish g1' st1') as [[[q'|] lp']|]; cbn in Y; try tauto.
  - destruct Y as [Y <-]. cbn [orel fst snd]. split; [exact S1|]. split; [|reflexivity].
    assert (CO : circ_ok (fst (commit H1 nx1' q')) (snd (commit H1 nx1' q'))).
    { apply (ostep_ok H c). specialize (S (fst (commit H1 nx1' q')) (snd (commit H1 nx1' q')) (Some lp) st1').
      apply S. reflexivity. }
    exact (commit_view H1 nx1' q' f q CO Y).
  - specialize (Z lp' eq_refl). destruct (without_impossible g1' st1') as [g2'|]; [|congruence]. split; [exact S1|reflexivity].
Qed.

(** ** The new circuit objects *)

(** In [H] the object, log probability and results of [x] are those of [i]. *)
Definition stands (H : heap) (x : circ * num * store num) (i : item (D := dist)) : Prop :=
  view H (fst (fst x)) = Some (i_q i) /\ snd (fst x) = Fin (i_lp i) /\ snd x (i_r i) = Some (i_v i) /\
  tree_circuit (i_q i) (i_r i) (i_t i).

Definition separate (x y : circ * num * store num) : Prop := forall u, In u (c_units (fst (fst x))) -> ~ In u (c_units (fst (fst y))).

Lemma tree_circuit_rename f (q : graph dist) r t : (forall x y, f x = f y -> x = y) -> tree_circuit q r t -> tree_circuit (rename f q) (f r) t.
Proof.
  intros inj [T L U F]. pose proof (rename_same_as f q inj) as S. constructor.
  - exact (rt_tree f q (g_edges q) inj (Permutation.Permutation_refl _) r T).
  - exact (rt_terminal f q (g_edges q) (Permutation.Permutation_refl _) S L).
  - exact (ren_unfolds f _ _ S r t U).
  - exact F.
Qed.

Lemma conditionals_parts es : forall sts H c g r t, circ_ok H c -> view H c = Some g -> valid_tree g r t -> fin_sums t ->
  Forall (regular t) es ->
  exists H' l os, h_conditionals es sts H c = Some (H', l) /\ Forall2 (part_in t) es os /\ Forall2 (stands H') l (somes os) /\
    ForallOrdPairs separate l.
Proof.
  induction es as [|e es IH]; intros sts H c g r t K V T F HR; cbn [h_conditionals].
  - exists H, [], []. repeat split; constructor.
  - inversion HR as [|x y He HR']; subst.
    destruct (h_copy_view _ _ _ K V) as (H1 & c1 & E1 & V1). rewrite E1. pose proof (h_copy_step _ _ _ _ K E1) as S1.
    pose proof (valid_tree_copy (copy_name H c) g r t (copy_name_inj _ _) T) as T1. set (g1 := circuit_copy (copy_name H c) g) in *.
    pose proof (h_results_view e (hd empty_store sts) H1 c1 g1 (ostep_ok _ _ _ _ S1) V1 (proj1 (vt_tree _ _ _ T1))) as X.
    destruct (part_facts e g1 _ t (fun u => hd empty_store sts (cond_name H1 g1 u)) T1 F He) as (part & Ep & HP).
    rewrite Ep in X. destruct (h_conditional_simple e (hd empty_store sts) H1 c1) as [[[[H2 c2] lp] st]|] eqn:E2; cbn [orel] in X; [|contradiction].
    destruct X as [SR X]. cbn [fst snd] in *.
    pose proof (h_conditional_simple_step _ _ _ _ _ _ _ _ (ostep_ok _ _ _ _ S1) E2) as S2.
    pose proof (ostep_trans _ _ _ _ _ _ S1 S2) as S. pose proof (frame_none' _ _ _ (proj1 S)) as F12.
    assert (K2 : circ_ok H2 c).
    { split; [exact (st_ok _ _ _ _ (proj1 S))|]. split; [|exact (proj2 (proj2 K))].
      exact (in_heap_mono _ _ _ _ _ F12 (proj1 (proj2 K))). }
    assert (V2 : view H2 c = Some g).
    { rewrite (view_frame _ _ H H2 c (proj1 K) F12 (proj1 (proj2 K))); [exact V|tauto|tauto]. }
    destruct (IH (tl sts) H2 c g r t K2 V2 T F HR') as (H3 & l & os & E3 & Fo & Fl & Sep). rewrite E3.
    destruct (h_conditionals_spec _ _ _ _ _ _ K2 E3) as (F23 & O3 & L3).
    pose proof (st_in _ _ _ _ (proj1 S)) as I2.
    destruct HP as [[Z P]|(Hp & i & P & C & _)].
    + exists H3, l, (None :: os). split; [|split; [constructor; [exact Z|exact Fo]|auto]]. f_equal. f_equal.
      cbn [parted] in P. destruct (fst (fst part)) as [q|]; [destruct X as [_ ->]; now rewrite P|now rewrite X].
    + destruct P as (P1 & P2 & P3). rewrite P1 in X. cbn [fst snd] in X. destruct X as [X ->]. cbn [gt_ninf].
      set (f := cond_name H1 g1) in *. assert (inj : forall x y, f x = f y -> x = y) by apply new_name_inj.
      exists H3, ((c2, Fin (i_lp i), st) :: l), (Some (mkItem (rename f (i_q i)) (f (i_r i)) (i_t i) (i_lp i) (i_v i)) :: os).
      split; [reflexivity|]. split.
      { constructor; [|exact Fo]. split; [exact Hp|]. destruct C. constructor; cbn [i_t i_lp]; auto. }
      split.
      * cbn [somes]. constructor; [|exact Fl]. unfold stands; cbn [fst snd i_q i_r i_t i_lp i_v]. split; [|split; [reflexivity|split]].
        -- rewrite (view_frame _ _ H2 H3 c2 (st_ok _ _ _ _ (proj1 S)) F23 I2); [exact X|tauto|tauto].
        -- rewrite <- P2. apply SR.
        -- exact (tree_circuit_rename f _ _ _ inj P3).
      * constructor; [|exact Sep]. apply Forall_forall. intros y Hy u Hu Hu'. cbn [fst] in Hu.
        rewrite Forall_forall in L3. pose proof (proj1 (proj2 (L3 y Hy)) u Hu'). pose proof (I2 u Hu). lia.
Qed.

(** ** The sum unit over them *)

Lemma mount_all_views s H l is : Forall2 (stands H) l is -> ForallOrdPairs separate l ->
  forall acc g vs ps, grel (reads H) (fun x => x) acc g -> laid s acc ps ->
    (forall x u, In x l -> In u (c_units (fst (fst x))) -> ~ In u (node_ids acc)) ->
    exists acc' g', foldM (h_mount_one s H) l (g, vs) = Some (g', vs ++ map (fun i => (Fin (i_lp i), i_v i)) is) /\
      grel (reads H) (fun x => x) acc' g' /\ laid s acc' (ps ++ map item_place is).
Proof.
  induction 1 as [|x i l is (X1 & X2 & X3 & X4) _ IH]; intros Sep acc g vs ps G L New.
  - exists acc, g. cbn. rewrite !app_nil_r. auto.
  - inversion Sep as [|y z S1 S2]; subst. cbn [foldM]. unfold h_mount_one at 1. cbn [fst snd].
    pose proof (view_ids _ _ _ X1) as Ids.
    destruct (laid_step s acc ps (i_q i) (i_r i) (Fin (i_lp i)) L (tc_tree _ _ _ X4)) as (acc1 & E1 & L1 & I1).
    { intros u Hu. rewrite Ids in Hu. exact (New x u (or_introl eq_refl) Hu). }
    pose proof (grel_mount_root (reads H) s acc g (i_q i) (ref_graph H (fst (fst x))) (Fin (i_lp i)) G (view_refs_id _ _ _ X1)) as Y.
    rewrite E1 in Y. rewrite X2. destruct (mount_root s g (ref_graph H (fst (fst x))) (Fin (i_lp i))) as [[g1 r1]|]; cbn in Y; [|contradiction].
    destruct Y as [Y <-]. rewrite X3.
    destruct (IH S2 acc1 g1 (vs ++ [(Fin (i_lp i), i_v i)]) (ps ++ [(i_q i, i_r i, Fin (i_lp i))]) Y L1) as (acc' & g' & E' & G' & L').
    { intros y u Hy Hu Hn. apply I1 in Hn. destruct Hn as [Hn|Hn]; [exact (New y u (or_intror Hy) Hu Hn)|].
      rewrite Ids in Hn. rewrite Forall_forall in S1. exact (S1 y Hy u Hn Hu). }
    exists acc', g'. cbn [map]. unfold item_place at 1. rewrite <- !app_assoc in *. cbn [app] in *. auto.
Qed.

(** ** Several simple sets *)

Theorem h_event es sts H c g r t : circ_ok H c -> view H c = Some g -> valid_tree g r t -> fin_sums t -> Forall (regular t) es ->
  2 <= List.length es ->
  ((0 < Rsum (map (fun e => prob_of e t) es))%R ->
     exists H' c' lp q rq tq, h_conditional_in_place es sts H c = Some (H', c', Some lp) /\ view H' c' = Some q /\ valid_tree q rq tq /\
       forall a cs, event_ok t a -> Forall2 (fun e c => meet t c e a) es cs ->
         answers q a (Rsum (map (fun c => prob_of c t) cs) / Rsum (map (fun e => prob_of e t) es))%R) /\
  (Forall (fun e => prob_of e t = 0%R) es -> exists H', h_conditional_in_place es sts H c = Some (H', mkCirc [] [], None)).
Proof.
  intros K V T F HR Len. pose proof (fun H' c' lp => h_conditional_in_place_step es sts H c H' c' lp K) as Step.
  destruct (conditionals_parts es sts H c g r t K V T F HR) as (H1 & l & os & E1 & Fo & Fl & Sep).
  destruct (h_conditionals_spec _ _ _ _ _ _ K E1) as (F1 & O1 & L1).
  unfold h_conditional_in_place in *. destruct es as [|e0 [|e1 es]]; cbn in Len; try lia. set (ees := e0 :: e1 :: es) in *. rewrite E1 in *. split.
  - intros Hp.
    assert (Hne : somes os <> []).
    { intros En. assert (Z : Rsum (map (fun e => prob_of e t) ees) = Rsum (map (fun i : item (D := dist) => exp (i_lp i)) (somes os))).
      { apply (sum_somes _ _ _ _ _ Fo); [auto|]. intros e i (_ & C). symmetry. apply C. }
      rewrite Z, En in Hp. cbn in Hp. lra. }
    destruct l as [|x l]; [inversion Fl; congruence|]. cbv beta iota zeta in Step |- *. remember (x :: l) as cl eqn:Ecl. clear Ecl x l.
    set (s := List.length (h_units H1)) in *.
    destruct (mount_all_views s H1 cl (somes os) Fl Sep (mkGraph [(s, USum)] []) (mkGraph [(s, USum)] []) [] []) as (acc & g' & EM & G & L).
    + constructor; [|reflexivity]. constructor; [|constructor]. split; [reflexivity|constructor].
    + apply laid_nil.
    + intros x u Hx Hu [<-|[]]. rewrite Forall_forall in L1. pose proof (proj1 (L1 x Hx) _ Hu) as Hs. cbn [fst] in Hs. unfold s in Hs. exact (Nat.lt_irrefl _ Hs).
    + cbn [app] in EM, L. change (h_mount_all s H1 cl = Some (g', map (fun i => (Fin (i_lp i), i_v i)) (somes os))) in EM. rewrite EM in Step. rewrite EM.
      destruct (laid_normalize s acc (somes os) L Hne) as (Gq & z & EN & Ez & Tq).
      { intros i Hi. clear - Fl Hi. induction Fl as [|x j l is X _ IH]; [destruct Hi|]. destruct Hi as [<-|Hi]; [apply X|auto]. }
      pose proof (grel_sum_normalize (reads H1) (fun x => x) (fun _ _ X => X) acc g' s G) as Y. rewrite EN in Y.
      destruct (sum_normalize g' s) as [g2|] eqn:EN'; cbn in Y; [|contradiction].
      assert (Ef : exists v, sum_log_forward (map (fun i => (Fin (i_lp i), i_v i)) (somes os)) = Some v).
      { destruct (somes os); [congruence|]. cbn. eauto. }
      destruct Ef as [v Ef]. rewrite Ef in Step. rewrite Ef. specialize (Step _ _ _ eq_refl).
      pose proof (commit_view H1 (S s) g2 (fun x => x) Gq (ostep_ok _ _ _ _ Step) Y) as VV. rewrite rename_id in VV.
      destruct (bayes_of_parts ees t os Gq s z (vt_ok _ _ _ T)) as [VT A]; auto.
      { eapply Forall_impl; [|exact HR]. intros e He. apply He. }
      do 6 eexists. split; [reflexivity|]. split; [exact VV|]. split; [exact VT|exact A].
  - intros HZ. assert (En : somes os = []).
    { clearbody ees. clear - Fo HZ. induction Fo as [|e o ees os P _ IH]; [reflexivity|]. inversion HZ; subst. destruct o as [i|]; [|auto]. destruct P. lra. }
    rewrite En in Fl. inversion Fl; subst. eauto.
Qed.
