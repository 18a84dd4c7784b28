(** * CopyFacts: what copying, serialising and comparing circuits yields

    Proof file. *)
From Coq Require Import List Arith Bool Lia Reals ZArith String.
From Verif Require Import Num Graph GraphFacts Spec SpecFacts Circuit Interval Dist DistFacts Rename Copy.
Import ListNotations.
Local Open Scope nat_scope.

Definition pair_of (e : edge) : id * id := (e_src e, e_dst e).

Section Facts.
Context {D : Type}.
Implicit Types g : graph D.

(** ** Building a graph node by node and edge by edge *)

Lemma add_nodes_fold (nu : id -> id) (l : list (id * ukind D)) : forall (acc : list (id * ukind D)) es,
  NoDup (map fst acc ++ map (fun p => nu (fst p)) l) ->
  fold_left (fun a p => add_node a (nu (fst p)) (snd p)) l (mkGraph acc es)
  = mkGraph (acc ++ map (fun p => (nu (fst p), snd p)) l) es.
Proof.
  induction l as [|p l IH]; intros acc es ND; [simpl; now rewrite app_nil_r|].
  cbn [fold_left]. unfold add_node at 2.
  assert (N : has_node (mkGraph acc es) (nu (fst p)) = false).
  { apply not_true_is_false. intros H. unfold has_node, node_ids in H. apply existsb_exists in H.
    destruct H as (x & H & E). apply Nat.eqb_eq in E. subst x. cbn [g_nodes] in H. cbn [map] in ND.
    apply NoDup_remove_2 in ND. apply ND. apply in_app_iff. now left. }
  rewrite N. cbn [g_nodes g_edges]. rewrite IH.
  - rewrite <- app_assoc. reflexivity.
  - rewrite map_app, <- app_assoc. exact ND.
Qed.

Section Edges.
Context (nu : id -> id) (inj : forall x y, nu x = nu y -> x = y).
Variable N : list (id * ukind D).

Definition bare (e : edge) : edge := mkEdge (nu (e_src e)) (nu (e_dst e)) None.

Lemma add_bare_edges es : forall acc, NoDup (map pair_of acc ++ map (fun e => pair_of (bare e)) es) ->
  fold_left (fun a e => add_edge a (nu (e_src e)) (nu (e_dst e)) None) es (mkGraph N acc)
  = mkGraph N (acc ++ map bare es).
Proof.
  induction es as [|e es IH]; intros acc ND; [simpl; now rewrite app_nil_r|].
  cbn [fold_left]. unfold add_edge at 2.
  assert (X : existsb (is_edge (nu (e_src e)) (nu (e_dst e))) (g_edges (mkGraph N acc)) = false).
  { apply not_true_is_false. intros H. apply existsb_exists in H. destruct H as (x & H & E).
    unfold is_edge in E. apply andb_true_iff in E. destruct E as [E1 E2]. apply Nat.eqb_eq in E1, E2.
    cbn [g_edges] in H. cbn [map] in ND. apply NoDup_remove_2 in ND. apply ND. apply in_app_iff. left.
    apply in_map_iff. exists x. split; [|exact H]. unfold pair_of, bare. cbn [e_src e_dst]. now rewrite E1, E2. }
  rewrite X. cbn [g_nodes g_edges]. rewrite IH.
  - rewrite <- app_assoc. reflexivity.
  - rewrite map_app, <- app_assoc. exact ND.
Qed.

Lemma add_weights es : NoDup (map pair_of es) -> forall ws q,
  (forall e, In e es -> pair_of (q e) = (nu (e_src e), nu (e_dst e))) ->
  (forall w, In w ws -> In w es /\ e_lw w <> None) ->
  exists q', fold_left (fun a e => add_edge a (nu (e_src e)) (nu (e_dst e)) (e_lw e)) ws (mkGraph N (map q es))
             = mkGraph N (map q' es)
    /\ forall e, In e es -> (In e ws \/ q e = ren_edge nu e) -> q' e = ren_edge nu e.
Proof.
  intros ND. induction ws as [|w ws IH]; intros q Q W.
  - exists q. split; [reflexivity|]. intros e _ [[]|H]. exact H.
  - cbn [fold_left]. unfold add_edge at 2. cbn [g_edges g_nodes].
    destruct (W w (or_introl eq_refl)) as [Wi Wl].
    assert (X : existsb (is_edge (nu (e_src w)) (nu (e_dst w))) (map q es) = true).
    { apply existsb_exists. exists (q w). split; [now apply in_map|]. unfold is_edge.
      specialize (Q w Wi). unfold pair_of in Q. inversion Q as [[Q1 Q2]]. rewrite Q1, Q2. now rewrite !Nat.eqb_refl. }
    rewrite X, map_map.
    set (q1 := fun e => if is_edge (nu (e_src w)) (nu (e_dst w)) (q e)
                        then mkEdge (nu (e_src w)) (nu (e_dst w))
                               match e_lw w with Some w0 => Some w0 | None => e_lw (q e) end
                        else q e).
    assert (Q1 : forall e, In e es -> (e = w /\ q1 e = ren_edge nu e) \/ (e <> w /\ q1 e = q e)).
    { intros e He. unfold q1. destruct (is_edge (nu (e_src w)) (nu (e_dst w)) (q e)) eqn:E.
      - left. unfold is_edge in E. apply andb_true_iff in E. destruct E as [E1 E2]. apply Nat.eqb_eq in E1, E2.
        specialize (Q e He). unfold pair_of in Q. inversion Q as [[P1 P2]].
        rewrite P1 in E1. rewrite P2 in E2. apply inj in E1. apply inj in E2.
        assert (EW : e = w).
        { clear - ND He Wi E1 E2. induction es as [|x l IHl]; [destruct He|].
          cbn [map] in ND. apply NoDup_cons_iff in ND. destruct ND as [ND1 ND2].
          destruct He as [He|He], Wi as [Wi|Wi]; [congruence| | |auto]; exfalso; apply ND1.
          - subst x. apply in_map_iff. exists w. split; [unfold pair_of; congruence|exact Wi].
          - subst x. apply in_map_iff. exists e. split; [unfold pair_of; congruence|exact He]. }
        split; [exact EW|]. rewrite EW. unfold ren_edge. destruct (e_lw w); [reflexivity|now elim Wl].
      - right. split; [|reflexivity]. intros ->. specialize (Q w He). unfold pair_of in Q. inversion Q as [[P1 P2]].
        unfold is_edge in E. rewrite P1, P2, !Nat.eqb_refl in E. discriminate. }
    destruct (IH q1) as (q' & Eq & Hq').
    + intros e He. destruct (Q1 e He) as [[_ ->]|[_ ->]]; [reflexivity|now apply Q].
    + intros x Hx. apply W. now right.
    + exists q'. split; [exact Eq|]. intros e He [[->|Hw]|Hq].
      * apply Hq'; [exact He|]. right. destruct (Q1 e He) as [[_ H]|[H _]]; [exact H|now elim H].
      * apply Hq'; [exact He|now left].
      * apply Hq'; [exact He|]. right. destruct (Q1 e He) as [[_ H]|[_ H]]; [exact H|now rewrite H].
Qed.

(** All edges bare first, the weighted ones again with their weight: every edge ends up as it was. *)
Lemma rebuild_edges es : NoDup (map pair_of es) ->
  fold_left (fun a e => add_edge a (nu (e_src e)) (nu (e_dst e)) (e_lw e))
            (filter (fun e => match e_lw e with Some _ => true | None => false end) es)
            (fold_left (fun a e => add_edge a (nu (e_src e)) (nu (e_dst e)) None) es (mkGraph N []))
  = mkGraph N (map (ren_edge nu) es).
Proof.
  intros ND. rewrite add_bare_edges.
  2:{ cbn [map app]. clear - ND inj. induction es as [|e l IH]; [constructor|]. cbn [map] in *.
      apply NoDup_cons_iff in ND. destruct ND as [ND1 ND2]. constructor; [|auto].
      intros H. apply ND1. apply in_map_iff in H. destruct H as (x & E & H). apply in_map_iff. exists x.
      split; [|exact H]. unfold pair_of, bare in *. cbn [e_src e_dst] in E. inversion E as [[E1 E2]].
      apply inj in E1. apply inj in E2. congruence. }
  cbn [app].
  destruct (add_weights es ND (filter (fun e => match e_lw e with Some _ => true | None => false end) es) bare)
    as (q' & -> & H).
  - intros e _. reflexivity.
  - intros w Hw. apply filter_In in Hw. destruct Hw as [H1 H2]. split; [exact H1|]. intros E. now rewrite E in H2.
  - f_equal. apply map_ext_in. intros e He. apply H; [exact He|].
    destruct (e_lw e) eqn:E.
    + left. apply filter_In. split; [exact He|now rewrite E].
    + right. unfold bare, ren_edge. now rewrite E.
Qed.
End Edges.

(** ** The iteration order over the edges *)

Lemma edges_iter_in g e : In e (edges_iter g) <-> In e (g_edges g) /\ In (e_src e) (node_ids g).
Proof.
  unfold edges_iter. rewrite in_flat_map. split.
  - intros (u & Hu & H). apply filter_In in H. destruct H as [H E]. apply Nat.eqb_eq in E. now subst.
  - intros [H Hu]. exists (e_src e). split; [exact Hu|]. apply filter_In. split; [exact H|apply Nat.eqb_refl].
Qed.

Lemma NoDup_map_filter {A B} (k : A -> B) (p : A -> bool) l : NoDup (map k l) -> NoDup (map k (filter p l)).
Proof.
  induction l as [|a l IH]; intros H; [constructor|]. cbn [map] in H. apply NoDup_cons_iff in H. destruct H as [H1 H2].
  cbn [filter]. destruct (p a); [|auto]. cbn [map]. constructor; [|auto].
  intros H. apply H1. apply in_map_iff in H. destruct H as (x & E & H). apply filter_In in H.
  apply in_map_iff. exists x. tauto.
Qed.

Lemma NoDup_app_intro {A} (l m : list A) : NoDup l -> NoDup m -> (forall x, In x l -> ~ In x m) -> NoDup (l ++ m).
Proof.
  induction l as [|a l IH]; intros Hl Hm H; [exact Hm|]. apply NoDup_cons_iff in Hl. destruct Hl as [H1 H2].
  cbn [app]. constructor.
  - intros X. apply in_app_iff in X. destruct X as [X|X]; [auto|]. apply (H a); [now left|exact X].
  - apply IH; auto. intros x Hx. apply H. now right.
Qed.

Lemma edges_iter_NoDup g : wf g -> NoDup (map pair_of (edges_iter g)).
Proof.
  intros W. unfold edges_iter. pose proof (wf_nodes g W) as ND. induction (node_ids g) as [|u l IH]; [constructor|].
  apply NoDup_cons_iff in ND. destruct ND as [N1 N2]. cbn [flat_map]. rewrite map_app. apply NoDup_app_intro.
  - apply NoDup_map_filter. exact (wf_edges g W).
  - auto.
  - intros p H H'. apply in_map_iff in H. destruct H as (e & <- & H). apply in_map_iff in H'. destruct H' as (e' & E & H').
    apply filter_In in H. destruct H as [_ H]. apply Nat.eqb_eq in H. apply in_flat_map in H'.
    destruct H' as (u' & Hu & H'). apply filter_In in H'. destruct H' as [_ H']. apply Nat.eqb_eq in H'.
    unfold pair_of in E. inversion E as [[E1 E2]]. apply N1. congruence.
Qed.

Lemma filter_flat_map g l u : NoDup l ->
  filter (fun e => e_src e =? u) (flat_map (out_edges g) l)
  = if existsb (Nat.eqb u) l then out_edges g u else [].
Proof.
  assert (S : forall u, filter (fun e => e_src e =? u) (out_edges g u) = out_edges g u).
  { intros v. unfold out_edges. induction (g_edges g) as [|e es IH]; [reflexivity|]. simpl.
    destruct (e_src e =? v) eqn:E; [|exact IH]. simpl. now rewrite E, IH. }
  assert (X : forall v, v <> u -> filter (fun e => e_src e =? u) (out_edges g v) = []).
  { intros v Hv. unfold out_edges. induction (g_edges g) as [|e es IH]; [reflexivity|]. simpl.
    destruct (Nat.eqb_spec (e_src e) v); [|exact IH]. simpl.
    destruct (Nat.eqb_spec (e_src e) u); [congruence|exact IH]. }
  induction l as [|v l IH]; intros ND; [reflexivity|]. apply NoDup_cons_iff in ND. destruct ND as [N1 N2].
  cbn [flat_map existsb]. rewrite filter_app, (IH N2). destruct (Nat.eqb_spec u v) as [->|Hv].
  - rewrite S. cbn [orb]. destruct (existsb (Nat.eqb v) l) eqn:E; [|now rewrite app_nil_r].
    exfalso. apply N1. apply existsb_exists in E. destruct E as (x & Hx & E). apply Nat.eqb_eq in E. now subst.
  - rewrite X by auto. reflexivity.
Qed.

Lemma regrouped_same_as (nu : id -> id) g : (forall x y, nu x = nu y -> x = y) -> wf g ->
  same_as nu g (mkGraph (map (fun p => (nu (fst p), snd p)) (g_nodes g)) (map (ren_edge nu) (edges_iter g))).
Proof.
  intros inj W. constructor; [exact inj|reflexivity| |].
  - intros e' H. cbn [g_edges] in H. apply in_map_iff in H. destruct H as (e & <- & H). exists e.
    split; [|reflexivity]. now apply edges_iter_in in H.
  - intros u. unfold out_edges at 1. cbn [g_edges].
    assert (E : filter (fun e => e_src e =? nu u) (map (ren_edge nu) (edges_iter g))
                = map (ren_edge nu) (filter (fun e => e_src e =? u) (edges_iter g))).
    { induction (edges_iter g) as [|e l IH]; [reflexivity|]. cbn [map filter].
      assert (B : (e_src (ren_edge nu e) =? nu u) = (e_src e =? u)).
      { cbn [ren_edge e_src]. destruct (Nat.eqb_spec (e_src e) u) as [->|Hn]; [apply Nat.eqb_refl|].
        apply Nat.eqb_neq. intros E. apply Hn. now apply inj. }
      rewrite B. destruct (e_src e =? u); cbn [map]; now rewrite IH. }
    rewrite E. unfold edges_iter. rewrite (filter_flat_map g _ u (wf_nodes g W)).
    destruct (existsb (Nat.eqb u) (node_ids g)) eqn:X; [reflexivity|].
    replace (out_edges g u) with (@nil edge); [reflexivity|]. symmetry.
    destruct (out_edges g u) as [|e l] eqn:O; [reflexivity|exfalso].
    assert (I : In e (out_edges g u)) by (rewrite O; now left). apply filter_In in I. destruct I as [I1 I2].
    apply Nat.eqb_eq in I2. pose proof (wf_src g W e I1) as I3. rewrite I2 in I3.
    assert (T : existsb (Nat.eqb u) (node_ids g) = true) by (apply existsb_exists; exists u; split; [auto|apply Nat.eqb_refl]).
    congruence.
Qed.

Lemma circuit_copy_eq (nu : id -> id) g : (forall x y, nu x = nu y -> x = y) -> wf g ->
  circuit_copy nu g = mkGraph (map (fun p => (nu (fst p), snd p)) (g_nodes g)) (map (ren_edge nu) (edges_iter g)).
Proof.
  intros inj W. unfold circuit_copy. unfold empty_graph. rewrite add_nodes_fold.
  - cbn [app]. unfold log_weighted_edges, unweighted_edges. apply rebuild_edges; [exact inj|now apply edges_iter_NoDup].
  - cbn [map app]. pose proof (wf_nodes g W) as ND. unfold node_ids in ND. clear - ND inj.
    induction (g_nodes g) as [|p l IH]; [constructor|]. cbn [map] in *. apply NoDup_cons_iff in ND. destruct ND as [N1 N2].
    constructor; [|auto]. intros H. apply N1. apply in_map_iff in H. destruct H as (q & E & H). apply inj in E.
    rewrite <- E. now apply in_map.
Qed.

Lemma circuit_copy_same_as (nu : id -> id) g : (forall x y, nu x = nu y -> x = y) -> wf g ->
  same_as nu g (circuit_copy nu g).
Proof. intros inj W. rewrite (circuit_copy_eq nu g inj W). now apply regrouped_same_as. Qed.

(** ** Positions *)

Fixpoint pos (l : list id) (u : id) : nat :=
  match l with [] => u | x :: l' => if x =? u then 0 else S (pos l' u) end.

Lemma pos_in l u : In u l -> pos l u < List.length l /\ nth_error l (pos l u) = Some u.
Proof.
  induction l as [|x l IH]; intros H; [destruct H|]. cbn [pos List.length].
  destruct (Nat.eqb_spec x u) as [->|N]; [split; [lia|reflexivity]|].
  destruct H as [H|H]; [congruence|]. destruct (IH H) as [I1 I2]. split; [lia|exact I2].
Qed.

Lemma pos_out l u : ~ In u l -> pos l u = List.length l + u.
Proof.
  induction l as [|x l IH]; intros H; [reflexivity|]. cbn [pos List.length].
  destruct (Nat.eqb_spec x u) as [->|N]; [elim H; now left|].
  rewrite IH; [reflexivity|]. intros X. apply H. now right.
Qed.

Lemma pos_inj l u v : pos l u = pos l v -> u = v.
Proof.
  intros E. destruct (in_dec Nat.eq_dec u l) as [U|U], (in_dec Nat.eq_dec v l) as [V|V].
  - destruct (pos_in l u U) as [_ A]. destruct (pos_in l v V) as [_ B]. rewrite E in A. congruence.
  - destruct (pos_in l u U) as [A _]. rewrite (pos_out l v V) in E. lia.
  - destruct (pos_in l v V) as [A _]. rewrite (pos_out l u U) in E. lia.
  - rewrite (pos_out l u U), (pos_out l v V) in E. lia.
Qed.

Lemma pos_app l x m : ~ In x l -> pos (l ++ x :: m) x = List.length l.
Proof.
  induction l as [|y l IH]; intros H; cbn [app pos List.length]; [now rewrite Nat.eqb_refl|].
  destruct (Nat.eqb_spec y x) as [->|N]; [elim H; now left|]. rewrite IH; [reflexivity|]. intros X. apply H. now right.
Qed.
End Facts.

(** ** Dictionaries with integer keys *)

Lemma zassign_fresh {A} (m : list (Z * A)) k a : ~ In k (map fst m) -> zassign m k a = m ++ [(k, a)].
Proof.
  intros H. unfold zassign. destruct (existsb (fun kv => Z.eqb (fst kv) k) m) eqn:E; [|reflexivity].
  exfalso. apply H. apply existsb_exists in E. destruct E as (kv & I & E). apply Z.eqb_eq in E. subst. now apply in_map.
Qed.

Lemma zassign_fold {A B} (h : A -> Z) (k : A -> B) l : forall acc,
  NoDup (map fst acc ++ map h l) ->
  fold_left (fun m p => zassign m (h p) (k p)) l acc = acc ++ map (fun p => (h p, k p)) l.
Proof.
  induction l as [|p l IH]; intros acc ND; [simpl; now rewrite app_nil_r|]. cbn [fold_left].
  rewrite zassign_fresh.
  - rewrite IH; [rewrite <- app_assoc; reflexivity|]. rewrite map_app, <- app_assoc. exact ND.
  - cbn [map] in ND. apply NoDup_remove_2 in ND. intros H. apply ND. apply in_app_iff. now left.
Qed.

Lemma zlookup_in {A} (m : list (Z * A)) k a : NoDup (map fst m) -> In (k, a) m -> zlookup m k = Some a.
Proof.
  induction m as [|[k' a'] m IH]; intros ND H; [destruct H|]. cbn [map fst] in ND. apply NoDup_cons_iff in ND.
  destruct ND as [N1 N2]. unfold zlookup. cbn [find fst]. destruct (Z.eqb_spec k' k) as [->|N].
  - destruct H as [H|H]; [inversion H; reflexivity|]. exfalso. apply N1. apply (in_map fst) in H. exact H.
  - destruct H as [H|H]; [inversion H; congruence|]. exact (IH N2 H).
Qed.

(** ** JSON of distributions and units *)

Definition keys_ok (d : dist) : Prop :=
  match d with DSym _ p | DInt _ p => NoDup (keys p) | _ => True end.

Lemma dset_fresh p k q : ~ In k (keys p) -> dset p k q = p ++ [(k, q)].
Proof. exact (zassign_fresh p k q). Qed.

Lemma dict_round p : NoDup (keys p) -> dict_of_json (dict_to_json p) = Some p.
Proof.
  intros ND. unfold dict_of_json, dict_to_json.
  assert (G : forall l acc, NoDup (keys acc ++ keys l) ->
    foldM (fun acc item => match item with JArr [JInt k; JNum (Fin q)] => Some (dset acc k q) | _ => None end)
          (map (fun kv : Z * R => JArr [JInt (fst kv); JNum (Fin (snd kv))]) l) acc = Some (acc ++ l)).
  { induction l as [|[k q] l IH]; intros acc H; [simpl; now rewrite app_nil_r|]. cbn [map foldM fst snd].
    rewrite dset_fresh.
    - rewrite IH; [rewrite <- app_assoc; reflexivity|]. unfold keys in *. rewrite map_app, <- app_assoc. exact H.
    - unfold keys in *. cbn [map fst] in H. apply NoDup_remove_2 in H. intros X. apply H. apply in_app_iff. now left. }
  now rewrite (G p []).
Qed.

Lemma sint_round i : sint_of_json (sint_to_json i) = Some i.
Proof. destruct i; reflexivity. Qed.

Lemma var_round v : var_of_json (var_to_json v) = Some v.
Proof. unfold var_of_json, var_to_json. now rewrite Nat2Z.id. Qed.

Lemma dist_round d : keys_ok d -> dist_of_json (dist_to_json d) = Some d.
Proof.
  intros K. destruct d as [v i|v x c|v m s|v i m s|v p|v p]; unfold dist_of_json, dist_to_json;
    unfold jget_sint, jget_real, jget_num, jget_dict; cbn [jget find fst snd String.eqb Ascii.eqb Bool.eqb obind];
    rewrite var_round; cbn [obind]; rewrite ?sint_round; cbn [obind jreal jnum]; try reflexivity.
  - now rewrite (dict_round p K).
  - now rewrite (dict_round p K).
Qed.

Lemma unit_round k : (forall d, k = ULeaf d -> keys_ok d) -> unit_of_json (unit_to_json k) = Some k.
Proof.
  intros K. destruct k as [d| |]; [|reflexivity|reflexivity].
  assert (E : unit_of_json (unit_to_json (ULeaf d)) = obind (dist_of_json (dist_to_json d)) (fun d => Some (ULeaf d))).
  { unfold unit_of_json, unit_to_json. destruct (leaf_class d =? 0); reflexivity. }
  rewrite E, (dist_round d (K d eq_refl)). reflexivity.
Qed.

(** ** The round trip of a circuit *)

Section Round.
Variable g : graph dist.
Hypothesis W : wf g.
Hypothesis K : forall u d, In (u, ULeaf d) (g_nodes g) -> keys_ok d.
Variable h : id -> Z.
Hypothesis h_inj : forall u v, In u (node_ids g) -> In v (node_ids g) -> h u = h v -> u = v.
Variable nu : nat -> id.
Hypothesis nu_inj : forall j k, nu j = nu k -> j = k.

Definition json_ren (u : id) : id := nu (pos (node_ids g) u).

Lemma json_ren_inj x y : json_ren x = json_ren y -> x = y.
Proof. intros E. apply nu_inj in E. exact (pos_inj _ _ _ E). Qed.

Lemma hashes_NoDup : NoDup (map (fun p : id * ukind dist => h (fst p)) (g_nodes g)).
Proof.
  rewrite <- map_map with (f := fst) (g := h). fold (node_ids g).
  assert (G : forall l, (forall u, In u l -> In u (node_ids g)) -> NoDup l -> NoDup (map h l)).
  { induction l as [|u l IH]; intros S ND; [constructor|]. apply NoDup_cons_iff in ND. destruct ND as [N1 N2].
    cbn [map]. constructor; [|apply IH; [intros; apply S; now right|exact N2]].
    intros H. apply in_map_iff in H. destruct H as (v & E & H). apply N1.
    rewrite <- (h_inj v u); [exact H|apply S; now right|apply S; now left|exact E]. }
  apply G; [auto|exact (wf_nodes g W)].
Qed.

Lemma nodes_fold : forall l done, g_nodes g = done ++ l ->
  foldM (node_of_json nu) (map (fun p => (h (fst p), unit_to_json (snd p))) l)
        (mkGraph (map (fun p => (json_ren (fst p), snd p)) done) [], map (fun p => (h (fst p), json_ren (fst p))) done)
  = Some (mkGraph (map (fun p => (json_ren (fst p), snd p)) (g_nodes g)) [],
          map (fun p => (h (fst p), json_ren (fst p))) (g_nodes g)).
Proof.
  induction l as [|[u k] l IH]; intros done E.
  - rewrite app_nil_r in E. now rewrite E.
  - cbn [map foldM fst snd]. unfold node_of_json at 1. cbn [fst snd].
    rewrite unit_round.
    2:{ intros d ->. apply (K u). rewrite E. apply in_app_iff. right. now left. }
    cbn [g_nodes fst]. rewrite map_length.
    pose proof (wf_nodes g W) as ND. unfold node_ids in ND. rewrite E, map_app in ND. cbn [map fst] in ND.
    assert (P : nu (List.length done) = json_ren u).
    { unfold json_ren, node_ids. rewrite E, map_app. cbn [map fst]. rewrite pos_app; [now rewrite map_length|].
      apply NoDup_remove_2 in ND. intros X. apply ND. apply in_app_iff. now left. }
    rewrite P. unfold add_node.
    assert (N : has_node (mkGraph (map (fun p : id * ukind dist => (json_ren (fst p), snd p)) done) []) (json_ren u) = false).
    { apply not_true_is_false. intros H. unfold has_node, node_ids in H. cbn [g_nodes] in H. rewrite map_map in H.
      cbn [fst] in H. apply existsb_exists in H. destruct H as (x & Hx & Ex). apply Nat.eqb_eq in Ex. subst x.
      apply in_map_iff in Hx. destruct Hx as (q & Eq & Hq). apply json_ren_inj in Eq.
      apply NoDup_remove_2 in ND. apply ND. apply in_app_iff. left. rewrite <- Eq. now apply in_map. }
    rewrite N. cbn [g_nodes g_edges]. rewrite zassign_fresh.
    2:{ rewrite map_map. cbn [fst]. pose proof hashes_NoDup as HN. rewrite E, map_app in HN. cbn [map fst] in HN.
        apply NoDup_remove_2 in HN. intros X. apply HN. apply in_app_iff. now left. }
    specialize (IH (done ++ [(u, k)])). rewrite <- app_assoc in IH. specialize (IH E).
    rewrite !map_app in IH. exact IH.
Qed.

Lemma remap_lookup u : In u (node_ids g) ->
  zlookup (map (fun p : id * ukind dist => (h (fst p), json_ren (fst p))) (g_nodes g)) (h u) = Some (json_ren u).
Proof.
  intros H. apply zlookup_in.
  - rewrite map_map. cbn [fst]. exact hashes_NoDup.
  - unfold node_ids in H. apply in_map_iff in H. destruct H as (p & <- & H). apply in_map_iff. now exists p.
Qed.

Lemma edges_fold remap : (forall u, In u (node_ids g) -> zlookup remap (h u) = Some (json_ren u)) ->
  forall l a, (forall e, In e l -> In (e_src e) (node_ids g) /\ In (e_dst e) (node_ids g)) ->
  foldM (edge_of_json remap) (map (fun e => JArr [JInt (h (e_src e)); JInt (h (e_dst e))]) l) a
  = Some (fold_left (fun a e => add_edge a (json_ren (e_src e)) (json_ren (e_dst e)) None) l a).
Proof.
  intros R. induction l as [|e l IH]; intros a S; [reflexivity|]. cbn [map foldM fold_left].
  unfold edge_of_json at 1. destruct (S e (or_introl eq_refl)) as [S1 S2]. rewrite (R _ S1), (R _ S2).
  apply IH. intros x Hx. apply S. now right.
Qed.

Lemma weighted_edges_fold remap : (forall u, In u (node_ids g) -> zlookup remap (h u) = Some (json_ren u)) ->
  forall l a, (forall e, In e l -> In (e_src e) (node_ids g) /\ In (e_dst e) (node_ids g) /\ e_lw e <> None) ->
  foldM (weighted_edge_of_json remap)
        (map (fun e => JArr [JInt (h (e_src e)); JInt (h (e_dst e)); JNum (match e_lw e with Some w => w | None => NaN end)]) l) a
  = Some (fold_left (fun a e => add_edge a (json_ren (e_src e)) (json_ren (e_dst e)) (e_lw e)) l a).
Proof.
  intros R. induction l as [|e l IH]; intros a S; [reflexivity|]. cbn [map foldM fold_left].
  unfold weighted_edge_of_json at 1. destruct (S e (or_introl eq_refl)) as (S1 & S2 & S3). rewrite (R _ S1), (R _ S2).
  destruct (e_lw e) as [w|]; [|now elim S3].
  apply IH. intros x Hx. apply S. now right.
Qed.

Lemma json_round :
  circuit_of_json nu (circuit_to_json h g)
  = Some (mkGraph (map (fun p => (json_ren (fst p), snd p)) (g_nodes g)) (map (ren_edge json_ren) (edges_iter g))).
Proof.
  unfold circuit_of_json, circuit_to_json. cbn [jget find fst snd String.eqb Ascii.eqb Bool.eqb].
  rewrite zassign_fold; [|exact hashes_NoDup]. cbn [app].
  pose proof (nodes_fold (g_nodes g) [] eq_refl) as NF. cbn [map] in NF. unfold empty_graph. rewrite NF.
  rewrite (edges_fold _ remap_lookup).
  2:{ intros e He. apply edges_iter_in in He. destruct He as [H1 H2]. split; [exact H2|exact (wf_dst g W e H1)]. }
  rewrite (weighted_edges_fold _ remap_lookup).
  2:{ intros e He. unfold log_weighted_edges in He. apply filter_In in He. destruct He as [He Hw].
      apply edges_iter_in in He. destruct He as [H1 H2]. split; [exact H2|split; [exact (wf_dst g W e H1)|]].
      intros E. now rewrite E in Hw. }
  f_equal. unfold log_weighted_edges, unweighted_edges.
  apply rebuild_edges; [exact json_ren_inj|now apply edges_iter_NoDup].
Qed.

Lemma json_same_as : exists g', circuit_of_json nu (circuit_to_json h g) = Some g' /\ same_as json_ren g g'.
Proof. eexists. split; [exact json_round|]. apply regrouped_same_as; [exact json_ren_inj|exact W]. Qed.
End Round.
