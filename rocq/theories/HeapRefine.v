(** * HeapRefine: the methods on objects do to the view of a circuit what the model of the other files does to a value

    Proof file for C83. *)
From Coq Require Import List Arith Bool Lia ZArith Reals.
From Verif Require Import Num Graph GraphFacts Spec SpecFacts Circuit Interval Dist DistFacts Simplify Conditional
  Rename Copy CopyFacts Heap HeapFacts HeapOps MoveFacts Relate.
Import ListNotations.
Local Open Scope nat_scope.
Local Set Bullet Behavior "Strict Subproofs".

(** The object at [a] is the distribution [d]. *)
Definition reads (H : heap) (d : dist) (a : addr) : Prop := read_dist H a = Some d.

Definition rename {D} (f : id -> id) (g : graph D) : graph D :=
  mkGraph (map (fun p => (f (fst p), snd p)) (g_nodes g)) (map (ren_edge f) (g_edges g)).

Lemma ren_edge_id e : ren_edge (fun x => x) e = e.
Proof. now destruct e. Qed.

Lemma rename_id {D} (g : graph D) : rename (fun x => x) g = g.
Proof.
  destruct g as [ns es]. unfold rename. cbn. f_equal.
  - rewrite <- (map_id ns) at 2. apply map_ext. now intros [].
  - rewrite <- (map_id es) at 2. apply map_ext. apply ren_edge_id.
Qed.

Lemma rename_same_as {D} (f : id -> id) (g : graph D) : (forall x y, f x = f y -> x = y) -> same_as f g (rename f g).
Proof.
  intros inj. constructor.
  - exact inj.
  - reflexivity.
  - cbn. intros e' He'. apply in_map_iff in He'. destruct He' as (e & <- & He). eauto.
  - intros u. unfold out_edges, rename. cbn [g_edges]. apply map_filter_comm. intros e. cbn.
    destruct (Nat.eqb_spec (e_src e) u) as [->|N]; [apply Nat.eqb_refl|]. apply Nat.eqb_neq. intros X. apply N. now apply inj.
Qed.

(** ** Views and references *)

Lemma unit_view_spec H u p : unit_view H u = Some p ->
  fst p = u /\ krel (reads H) (snd p) (nth u (h_units H) USum).
Proof.
  unfold unit_view. destruct (nth_error (h_units H) u) as [k|] eqn:E; [|discriminate]. rewrite (nth_error_nth _ _ _ _ E).
  destruct k as [a| |].
  - destruct (read_dist H a) as [d|] eqn:Ed; [|discriminate]. intros X. injection X as <-. split; [reflexivity|]. constructor. exact Ed.
  - intros X. injection X as <-. split; [reflexivity|constructor].
  - intros X. injection X as <-. split; [reflexivity|constructor].
Qed.

Lemma view_refs H c g f : view H c = Some g -> (forall u, In u (node_ids g) -> f u = u) ->
  (forall e, In e (g_edges g) -> f (e_src e) = e_src e /\ f (e_dst e) = e_dst e) ->
  grel (reads H) f g (ref_graph H c).
Proof.
  intros V Fu Fe. unfold view in V. destruct (mapM (unit_view H) (c_units c)) as [ns|] eqn:E; [|discriminate].
  injection V as <-. cbn [g_edges] in Fe. constructor.
  - unfold ref_graph. cbn [g_nodes]. unfold node_ids in Fu. cbn [g_nodes] in Fu. clear Fe.
    revert ns E Fu. induction (c_units c) as [|u l IH]; intros ns E Fu; unfold mapM in *; cbn in E.
    + injection E as <-. constructor.
    + destruct (unit_view H u) as [p|] eqn:Ep; [|discriminate].
      match type of E with context [match ?x with _ => _ end] => destruct x as [ns'|] eqn:En; [|discriminate] end.
      injection E as <-. destruct (unit_view_spec _ _ _ Ep) as [X K]. cbn [map]. constructor.
      * split; cbn [fst snd]; [|exact K]. rewrite Fu by (now left). now rewrite X.
      * apply IH; [exact eq_refl|]. intros x Hx. apply Fu. now right.
  - cbn [ref_graph g_edges]. rewrite <- (map_id (c_edges c)) at 1. apply map_ext_in. intros e He. destruct (Fe e He) as [A B].
    destruct e as [s d w]. unfold ren_edge. cbn in *. now rewrite A, B.
Qed.

(** Writing back related references. *)
Lemma commit_view H1 nx (g' : graph addr) f q : circ_ok (fst (commit H1 nx g')) (snd (commit H1 nx g')) ->
  grel (reads H1) f q g' -> view (fst (commit H1 nx g')) (snd (commit H1 nx g')) = Some (rename f q).
Proof.
  intros (_ & IN & ND) [GN GE]. unfold commit in *. cbn [fst snd circ_of c_units] in *. unfold write_units in *.
  destruct (write_units_spec (g_nodes g') (grow H1 nx)) as (E1 & E2 & E3 & _ & E5 & _).
  set (H2 := fold_left (fun h p => write_unit h (fst p) (snd p)) (g_nodes g') (grow H1 nx)) in *.
  assert (RD : forall a, read_dist H2 a = read_dist H1 a) by (intros a; unfold read_dist; now rewrite E1, E2).
  assert (W : forall p, In p (g_nodes g') -> nth_error (h_units H2) (fst p) = Some (snd p)).
  { intros [u k] Hp. apply (E5 ND u k Hp). rewrite <- E3. apply IN. unfold circ_of. cbn [c_units]. exact (in_map fst _ _ Hp). }
  unfold view, circ_of. cbn [c_units c_edges].
  assert (EM : mapM (unit_view H2) (node_ids g') = Some (map (fun p => (f (fst p), snd p)) (g_nodes q))).
  { unfold node_ids. clearbody H2. clear - GN RD W. induction GN as [|p p' l l' [A K] _ IH]; [reflexivity|].
    unfold mapM in *. cbn [map]. unfold unit_view at 1. rewrite (W p' (or_introl eq_refl)).
    rewrite IH by (intros; apply W; now right). destruct p as [u k], p' as [u' k']. cbn [fst snd] in *. subst u'.
    destruct K as [d a X| |]; [|reflexivity|reflexivity]. rewrite RD, X. reflexivity. }
  rewrite EM. unfold rename. now rewrite GE.
Qed.

(** ** Simplifying, normalising and marginalising *)

Lemma view_refs_id H c g : view H c = Some g -> grel (reads H) (fun x => x) g (ref_graph H c).
Proof. intros V. apply view_refs; auto. Qed.

Lemma h_simplify_view H c g : circ_ok H c -> view H c = Some g ->
  orel (fun q x => view (fst x) (snd x) = Some q) (simplify (fun _ => false) g) (h_simplify H c).
Proof.
  intros K V. pose proof (fun H' c' => h_simplify_step H c H' c' K) as S. unfold h_simplify in *.
  pose proof (grel_simplify (reads H) (fun x => x) (fun _ _ X => X) _ _ (view_refs_id H c g V)) as X.
  destruct (simplify (fun _ => false) g) as [q|], (simplify (fun _ => false) (ref_graph H c)) as [q'|]; cbn in X; try contradiction;
    [|exact I].
  cbn [orel]. rewrite (commit_view H 0 q' (fun x => x) q); [now rewrite rename_id| |exact X].
  exact (ostep_ok _ _ _ _ (S _ _ eq_refl)).
Qed.

Lemma h_normalize_view H c g : circ_ok H c -> view H c = Some g ->
  orel (fun q x => view (fst x) (snd x) = Some q) (normalize g) (h_normalize H c).
Proof.
  intros K V. pose proof (fun H' c' => h_normalize_step H c H' c' K) as S. unfold h_normalize in *.
  pose proof (grel_normalize (reads H) (fun x => x) (fun _ _ X => X) _ _ (view_refs_id H c g V)) as X.
  destruct (normalize g) as [q|], (normalize (ref_graph H c)) as [q'|]; cbn in X; try contradiction; [|exact I].
  cbn [orel]. rewrite (commit_view H 0 q' (fun x => x) q); [now rewrite rename_id| |exact X].
  exact (ostep_ok _ _ _ _ (S _ _ eq_refl)).
Qed.

Lemma h_marg_reads H vs d a : reads H d a -> orel (reads H) (marginal1 vs d) (h_marg H vs a).
Proof.
  intros X. unfold h_marg. rewrite X. unfold marginal1. destruct (existsb _ _); [exact X|exact I].
Qed.

Lemma h_marginal_view vs H c g : circ_ok H c -> view H c = Some g ->
  orel (fun o x => match o with
                   | Some q => snd x = true /\ view (fst (fst x)) (snd (fst x)) = Some q
                   | None => snd x = false
                   end)
       (marginal_in_place (fun _ => false) marginal1 vs g) (h_marginal_in_place vs H c).
Proof.
  intros K V. pose proof (fun H' c' b => h_marginal_in_place_step vs H c H' c' b K) as S. unfold h_marginal_in_place in *.
  pose proof (view_refs_id H c g V) as G.
  pose proof (grel_marginal (reads H) (fun x => x) (fun _ _ X => X) marginal1 (h_marg H) vs (h_marg_reads H vs) _ _ G) as X.
  pose proof (grel_marginal_loop (reads H) (fun x => x) (fun _ _ X => X) marginal1 (h_marg H) vs (h_marg_reads H vs) _ _ G) as Y.
  assert (Z : marginal_in_place (fun _ => false) (h_marg H) vs (ref_graph H c) = Some None -> marginal_loop (h_marg H) vs (ref_graph H c) <> None).
  { unfold marginal_in_place. intros A B. now rewrite B in A. }
  destruct (marginal_in_place (fun _ => false) marginal1 vs g) as [[q|]|],
    (marginal_in_place (fun _ => false) (h_marg H) vs (ref_graph H c)) as [[q'|]|]; cbn in X; try contradiction; try exact I.
  - cbn [orel]. split; [reflexivity|]. cbn [fst snd].
    rewrite (commit_view H 0 q' (fun x => x) q); [now rewrite rename_id| |exact X].
    exact (ostep_ok _ _ _ _ (S _ _ _ eq_refl)).
  - destruct (marginal_loop (h_marg H) vs (ref_graph H c)) as [[g1 o]|]; [reflexivity|now specialize (Z eq_refl)].
Qed.

(** ** Conditioning *)

Definition keeps (H H1 : heap) : Prop := forall d a, reads H d a -> reads H1 d a.

Lemma alloc_dist_keeps H o : keeps H (fst (alloc_dist H o)).
Proof.
  intros d a X. unfold reads, read_dist in *. cbn [alloc_dist fst h_dists h_dicts].
  destruct (nth_error (h_dists H) a) as [o'|] eqn:E; [|discriminate].
  rewrite nth_error_app1 by (apply nth_error_Some; congruence). now rewrite E.
Qed.

Lemma alloc_dist_new H d : reads (fst (alloc_dist H (OCont d))) d (snd (alloc_dist H (OCont d))).
Proof.
  unfold reads, read_dist. cbn [alloc_dist fst snd h_dists]. rewrite nth_error_app2 by lia. rewrite Nat.sub_diag. reflexivity.
Qed.

Lemma alloc_parts_reads l : forall H acc done,
  Forall2 (fun p q => fst p = fst q /\ reads H (snd p) (snd q)) done acc ->
  keeps H (fst (fold_left h_alloc_part l (H, acc))) /\
  Forall2 (fun p q => fst p = fst q /\ reads (fst (fold_left h_alloc_part l (H, acc))) (snd p) (snd q))
    (done ++ l) (snd (fold_left h_alloc_part l (H, acc))).
Proof.
  induction l as [|wd l IH]; intros H acc done F; cbn [fold_left].
  - rewrite app_nil_r. split; [intros d a X; exact X|exact F].
  - unfold h_alloc_part at 2 4 6. cbn [fst snd].
    destruct (IH (fst (alloc_dist H (OCont (snd wd)))) (acc ++ [(fst wd, snd (alloc_dist H (OCont (snd wd))))]) (done ++ [wd])) as [A B].
    + apply Forall2_app.
      * clear - F. induction F as [|p q l l' [X Y] _ IH]; constructor; [|exact IH]. split; [exact X|]. now apply alloc_dist_keeps.
      * constructor; [|constructor]. split; [reflexivity|]. apply alloc_dist_new.
    + rewrite <- app_assoc in B. split; [|exact B]. intros d a X. apply A. now apply alloc_dist_keeps.
Qed.

Lemma finish_discrete_reads H (s : bool) v q :
  match (if Reqb (Rsum (vals q)) 0 then Some LDead
         else Some (LOne (if s then DSym v (dnormalize q) else DInt v (dnormalize q)) (nlog (Fin (Rsum (vals q)))))),
        h_finish_discrete H s v q with
  | Some r, Some (H1, r') => lrel (reads H1) r r' /\ keeps H H1
  | _, _ => False
  end.
Proof.
  unfold h_finish_discrete. destruct (Reqb (Rsum (vals q)) 0).
  - split; [constructor|intros d a X; exact X].
  - cbn [alloc_dict alloc_dist]. unfold h_dist_normalize. cbn [h_dists h_dicts].
    rewrite nth_error_app2 by lia. rewrite Nat.sub_diag. cbn [nth_error].
    rewrite nth_error_app2 by lia. rewrite Nat.sub_diag. cbn [nth_error].
    split.
    + constructor. unfold reads, read_dist, write_dict. cbn [h_dists h_dicts].
      rewrite nth_error_app2 by lia. rewrite Nat.sub_diag. cbn [nth_error].
      rewrite set_nth_same by (rewrite app_length; cbn; lia). destruct s; reflexivity.
    + intros d a X. unfold reads, read_dist, write_dict in *. cbn [h_dists h_dicts].
      destruct (nth_error (h_dists H) a) as [o'|] eqn:E; [|discriminate].
      rewrite nth_error_app1 by (apply nth_error_Some; congruence). rewrite E. destruct o' as [d'|s' v' p']; [exact X|].
      destruct (nth_error (h_dicts H) p') as [q'|] eqn:Ep; [|discriminate].
      assert (L : p' < List.length (h_dicts H)) by (apply nth_error_Some; congruence).
      rewrite set_nth_other by lia. rewrite nth_error_app1 by exact L. now rewrite Ep.
Qed.

Lemma h_leaf_cond_reads H A d a : reads H d a ->
  match leaf_cond d A, h_leaf_cond H A a with
  | Some r, Some (H1, r') => lrel (reads H1) r r' /\ keeps H H1
  | None, None => True
  | _, _ => False
  end.
Proof.
  intros X. unfold h_leaf_cond. unfold reads, read_dist in X. destruct (nth_error (h_dists H) a) as [[d'|s v p]|] eqn:E; [| |discriminate].
  - injection X as ->. destruct (leaf_cond d A) as [[|d' lp|l lp]|]; [| | |exact I].
    + split; [constructor|intros ? ? Y; exact Y].
    + cbn [alloc_dist]. split; [constructor; exact (alloc_dist_new H d')|exact (alloc_dist_keeps H _)].
    + unfold h_alloc_parts. destruct (alloc_parts_reads l H [] [] (Forall2_nil _)) as [K F].
      destruct (fold_left h_alloc_part l (H, [])) as [H1 l']. cbn [fst snd app] in *. split; [now constructor|exact K].
  - destruct (nth_error (h_dicts H) p) as [q|]; [|discriminate]. injection X as <-.
    destruct s, A as [B|l]; cbn [leaf_cond discrete_cond]; try exact I; unfold finish_discrete.
    + pose proof (finish_discrete_reads H true v (sym_cond_dict q l)) as Y.
      destruct (Reqb (Rsum (vals (sym_cond_dict q l))) 0); exact Y.
    + pose proof (finish_discrete_reads H false v (int_cond_dict q B)) as Y.
      destruct (Reqb (Rsum (vals (int_cond_dict q B))) 0); exact Y.
Qed.

(** The states of the two passes. *)
Definition prel (f : id -> id) (x : graph dist * store num * nat) (y : heap * (graph addr * store num * nat)) : Prop :=
  crel (reads (fst y)) f x (snd y).

Lemma crel_keeps f H H1 x y : keeps H H1 -> crel (reads H) f x y -> crel (reads H1) f x y.
Proof. intros K (G & S & N). split; [|now split]. exact (grel_mono _ _ f _ _ K G). Qed.

Lemma pass_step e f x y u : (forall a b, f a = f b -> a = b) -> prel f x y ->
  orel (prel f) (unit_conditional (fun d => leaf_cond d (e (dvar d))) x u) (h_unit_conditional e y (f u)).
Proof.
  intros inj P. unfold prel in P. pose proof P as (G & S & N). unfold h_unit_conditional.
  pose proof (grel_kind _ _ inj _ _ u G) as K.
  assert (INNER : (forall d, node_kind (fst (fst x)) u <> Some (ULeaf d)) ->
    orel (prel f) (unit_conditional (fun d => leaf_cond d (e (dvar d))) x u)
      (match unit_conditional (fun _ => None) (snd y) (f u) with None => None | Some z => Some (fst y, z) end)).
  { intros NL. pose proof (crel_inner _ f inj (fun d => leaf_cond d (e (dvar d))) (fun _ => None) x (snd y) u NL P) as X.
    destruct (unit_conditional _ x u), (unit_conditional _ (snd y) (f u)); cbn in X; try contradiction; [exact X|exact I]. }
  destruct (node_kind (fst (fst x)) u) as [k|] eqn:Ek, (node_kind (fst (fst (snd y))) (f u)) as [k'|]; cbn in K; try contradiction;
    [|apply INNER; congruence].
  destruct K as [d a ad| |]; [|apply INNER; congruence|apply INNER; congruence].
  clear INNER. rewrite ad. unfold unit_conditional. rewrite Ek.
  pose proof (h_leaf_cond_reads (fst y) (e (dvar d)) d a ad) as L.
  destruct (leaf_cond d (e (dvar d))) as [r|] eqn:Er.
  - destruct (h_leaf_cond (fst y) (e (dvar d)) a) as [[H1 r']|]; [|contradiction]. destruct L as [L KP].
    pose proof (crel_leaf (reads H1) f inj (fun d => leaf_cond d (e (dvar d))) (fun _ => Some r') x (snd y) u d a) as X.
    cbv beta in X. rewrite Er in X. specialize (X L (crel_keeps f _ _ _ _ KP P)).
    destruct (leaf_conditional _ x u d), (leaf_conditional _ (snd y) (f u) a); cbn in X; try contradiction; [exact X|exact I].
  - destruct (h_leaf_cond (fst y) (e (dvar d)) a) as [[H1 r']|]; [contradiction|].
    unfold leaf_conditional. destruct x as [[gx sx] nx]. rewrite Er. exact I.
Qed.

(** Units that exist keep their names, new ones get the next free addresses. *)
Definition new_name (m L x : nat) : nat := if x <? m then x else x + (L - m).

Lemma new_name_inj m L x y : new_name m L x = new_name m L y -> x = y.
Proof. unfold new_name. destruct (Nat.ltb_spec x m), (Nat.ltb_spec y m); lia. Qed.

Lemma new_name_old m L x : x < m -> new_name m L x = x.
Proof. unfold new_name. destruct (Nat.ltb_spec x m); lia. Qed.

Lemma new_name_next m L : m <= L -> nxrel (new_name m L) m L.
Proof. intros H i. unfold new_name. destruct (Nat.ltb_spec (m + i) m); lia. Qed.

Lemma list_max_lt l L : l <> [] -> (forall x, In x l -> x < L) -> S (list_max l) <= L.
Proof.
  intros N H. assert (X : forall x, In x l -> x <= pred L) by (intros x Hx; specialize (H x Hx); lia).
  assert (Y : list_max l <= pred L) by (apply list_max_le, Forall_forall; exact X).
  destruct l as [|x l]; [congruence|]. specialize (H x (or_introl eq_refl)). lia.
Qed.

Lemma in_le_list_max l x : In x l -> x < S (list_max l).
Proof. intros H. pose proof (proj1 (list_max_le l (list_max l)) (le_n _)) as F. rewrite Forall_forall in F. specialize (F x H). lia. Qed.

Lemma view_ids H c g : view H c = Some g -> node_ids g = c_units c.
Proof. intros V. pose proof (grel_ids _ _ _ _ (view_refs_id H c g V)) as X. rewrite map_id in X. rewrite <- X.
  unfold node_ids, ref_graph. cbn. rewrite map_map. cbn. apply map_id. Qed.

Lemma bottom_up_nonempty {D} (g : graph D) order : bottom_up g = Some order -> node_ids g <> [].
Proof.
  unfold bottom_up, layers, root, root_candidates. intros H E. rewrite E in H. discriminate.
Qed.

Definition cond_name (H : heap) (g : graph dist) : id -> id := new_name (S (list_max (node_ids g))) (List.length (h_units H)).

Lemma cond_name_old H g u : In u (node_ids g) -> cond_name H g u = u.
Proof. intros Hu. apply new_name_old. now apply in_le_list_max. Qed.

Lemma h_conditional_simple_view e st H c g : circ_ok H c -> view H c = Some g -> wf g ->
  orel (fun x y => match fst x with
                   | Some q => view (fst (fst (fst y))) (snd (fst (fst y))) = Some (rename (cond_name H g) q) /\ snd (fst y) = Some (snd x)
                   | None => snd (fst y) = None
                   end)
       (conditional_on e g (fun u => st (cond_name H g u))) (h_conditional_simple e st H c).
Proof.
  intros K V W. pose proof (fun H' c' lp st' => h_conditional_simple_step e st H c H' c' lp st' K) as S.
  unfold conditional_on, conditional_simple. unfold h_conditional_simple in *.
  set (f := cond_name H g) in *.
  assert (inj : forall x y, f x = f y -> x = y) by apply new_name_inj.
  assert (G : grel (reads H) f g (ref_graph H c)).
  { apply view_refs; [exact V|apply cond_name_old|]. intros x Hx. split; apply cond_name_old.
    - exact (wf_src _ W x Hx).
    - exact (wf_dst _ W x Hx). }
  rewrite (grel_bottom_up _ _ inj _ _ G) in *. destruct (bottom_up g) as [order|] eqn:EB; [|exact I]. cbn [option_map] in *.
  assert (L : Datatypes.S (list_max (node_ids g)) <= List.length (h_units H)).
  { apply list_max_lt; [exact (bottom_up_nonempty _ _ EB)|]. rewrite (view_ids H c g V). exact (proj1 (proj2 K)). }
  assert (P0 : prel f (g, (fun u => st (f u)), Datatypes.S (list_max (node_ids g))) (H, (ref_graph H c, st, List.length (h_units H)))).
  { split; [exact G|]. split; [intros x; reflexivity|]. now apply new_name_next. }
  pose proof (foldM_rel (prel f) f (unit_conditional (fun d => leaf_cond d (e (dvar d)))) (h_unit_conditional e) order
    (fun x y u _ => pass_step e f x y u inj) _ _ P0) as X.
  destruct (foldM (unit_conditional _) order _) as [[[g1 st1] nx1]|], (foldM (h_unit_conditional e) (map f order) _) as [[H1 [[g1' st1'] nx1']]|];
    cbn [orel] in X; try contradiction; [|exact I].
  destruct X as (G1 & S1 & _). cbn [fst snd] in *.
  pose proof (grel_finish _ f inj _ _ _ _ G1 S1) as Y.
  assert (Z : forall lp, conditional_finish g1' st1' = Some (None, lp) -> without_impossible g1' st1' <> None).
  { intros lp. unfold conditional_finish, without_impossible. destruct (root g1'); [|discriminate].
    destruct (bottom_up g1') as [o1|]; [|discriminate]. destruct (foldM remove_node _ g1'); [|discriminate]. discriminate. }
  destruct (conditional_finish g1 st1) as [[[q|] lp]|], (conditional_finish g1' st1') as [[[q'|] lp']|]; cbn in Y; try tauto.
  - destruct Y as [Y <-]. cbn [orel fst snd]. split; [|reflexivity].
    assert (CO : circ_ok (fst (commit H1 nx1' q')) (snd (commit H1 nx1' q'))).
    { apply (ostep_ok H c). specialize (S (fst (commit H1 nx1' q')) (snd (commit H1 nx1' q')) (Some lp) st1').
      apply S. reflexivity. }
    exact (commit_view H1 nx1' q' f q CO Y).
  - specialize (Z lp' eq_refl). destruct (without_impossible g1' st1') as [g2'|]; [|congruence]. reflexivity.
Qed.
