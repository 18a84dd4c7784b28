(** * GraphValidFacts: Kahn's algorithm finds cycles and the search finds the component *)
From Coq Require Import List Arith Bool Lia Permutation.
From Verif Require Import Num Graph GraphFacts SimplifyFacts GraphValid.
Import ListNotations.
Local Set Bullet Behavior "Strict Subproofs".

Section Facts.
Context {D : Type}.
Variable g : graph D.
Hypothesis Hwf : wf g.

(** ** Entries that are left when the edges in [done] have been handled *)
Definition left_over (done : edge -> bool) (v : id) : nat := length (filter (fun e => negb (done e)) (in_edges g v)).
Definition entries (done : edge -> bool) (ns : list id) : indegrees := filter (fun p => 0 <? snd p) (map (fun v => (v, left_over done v)) ns).
Definition also (done : edge -> bool) (e : edge) : edge -> bool := fun e' => done e' || is_edge (e_src e) (e_dst e) e'.

Lemma edge_unique e e' : In e (g_edges g) -> In e' (g_edges g) -> e_src e = e_src e' -> e_dst e = e_dst e' -> e = e'.
Proof.
  intros H H' E1 E2. pose proof (wf_edges g Hwf) as N. revert H H' N. generalize (g_edges g) as l. induction l as [|a l IH]; intros H H' N; [contradiction|].
  cbn [map] in N. inversion N as [|? ? N1 N2]; subst. destruct H as [->|H], H' as [->|H']; auto.
  - exfalso. apply N1. rewrite E1, E2. now apply (in_map (fun e => (e_src e, e_dst e))).
  - exfalso. apply N1. rewrite <- E1, <- E2. now apply (in_map (fun e => (e_src e, e_dst e))).
Qed.

Lemma count_remove (p q : edge -> bool) e l : NoDup l -> In e l -> p e = true -> q e = false -> (forall x, In x l -> x <> e -> q x = p x) ->
  length (filter p l) = S (length (filter q l)).
Proof.
  intros N. induction N as [|a l Na N IH]; intros Hin Hp Hq He; [contradiction|]. cbn [filter]. destruct Hin as [->|Hin].
  - rewrite Hp, Hq. cbn [length]. f_equal. f_equal. apply filter_ext_in. intros x Hx. symmetry. apply He; [now right|]. intros ->. contradiction.
  - rewrite (He a (or_introl eq_refl)) by (intros ->; contradiction). specialize (IH Hin Hp Hq (fun x Hx => He x (or_intror Hx))).
    destruct (p a); cbn [length]; lia.
Qed.

Lemma edges_NoDup : NoDup (g_edges g).
Proof. pose proof (wf_edges g Hwf) as N. apply NoDup_map_inv in N. exact N. Qed.

Lemma left_over_also done e v : In e (g_edges g) -> done e = false -> left_over done v = (if v =? e_dst e then S (left_over (also done e) v) else left_over (also done e) v).
Proof.
  intros He Hd. unfold left_over. destruct (Nat.eqb_spec v (e_dst e)) as [->|Hn].
  - apply count_remove with (e := e).
    + apply NoDup_filter, edges_NoDup.
    + apply in_edges_In. auto.
    + now rewrite Hd.
    + unfold also, is_edge. now rewrite !Nat.eqb_refl, orb_true_r.
    + intros x Hx Hne. apply in_edges_In in Hx. destruct Hx as [Hx Hdx]. f_equal. unfold also, is_edge. destruct (Nat.eqb_spec (e_src x) (e_src e)) as [E|E]; [|now rewrite orb_false_r].
      exfalso. apply Hne. now apply edge_unique.
  - f_equal. apply filter_ext_in. intros x Hx. apply in_edges_In in Hx. destruct Hx as [_ Hdx]. f_equal. unfold also, is_edge.
    destruct (Nat.eqb_spec (e_dst x) (e_dst e)) as [E|E]; [congruence|]. now rewrite andb_false_r, orb_false_r.
Qed.

Lemma decrement_spec done e ns : In e (g_edges g) -> done e = false -> NoDup ns -> In (e_dst e) ns ->
  decrement (entries done ns) (e_dst e) = Some (entries (also done e) ns, left_over (also done e) (e_dst e) =? 0).
Proof.
  intros He Hd N. induction N as [|v ns Hv N IH]; intros Hin; [contradiction|].
  unfold entries. cbn [map filter snd]. pose proof (left_over_also done e v He Hd) as L. destruct (Nat.eqb_spec v (e_dst e)) as [->|Hne].
  - assert (Ex : filter (fun p : id * nat => 0 <? snd p) (map (fun v => (v, left_over done v)) ns) = filter (fun p => 0 <? snd p) (map (fun v => (v, left_over (also done e) v)) ns)).
    { f_equal. apply map_ext_in. intros w Hw. f_equal. rewrite (left_over_also done e w He Hd). destruct (Nat.eqb_spec w (e_dst e)) as [->|]; [contradiction|reflexivity]. }
    rewrite L. change (0 <? S (left_over (also done e) (e_dst e))) with true. cbv iota. rewrite Ex. cbn [decrement]. rewrite Nat.eqb_refl. replace (S (left_over (also done e) (e_dst e)) - 1) with (left_over (also done e) (e_dst e)) by lia.
    destruct (left_over (also done e) (e_dst e)) as [|n]; cbn; reflexivity.
  - destruct Hin as [->|Hin]; [congruence|]. specialize (IH Hin). unfold entries in IH. rewrite L. destruct (0 <? left_over (also done e) v).
    + cbn [decrement]. destruct (Nat.eqb_spec v (e_dst e)) as [?|_]; [congruence|]. now rewrite IH.
    + exact IH.
Qed.

Lemma visit_spec done e next : In e (g_edges g) -> done e = false ->
  visit_child (entries done (node_ids g), next) (e_dst e) = Some (entries (also done e) (node_ids g), if left_over (also done e) (e_dst e) =? 0 then next ++ [e_dst e] else next).
Proof.
  intros He Hd. unfold visit_child. cbn [fst snd]. rewrite decrement_spec; auto; [apply (wf_nodes g Hwf)|now apply (wf_dst g Hwf)].
Qed.

(** ** One unit *)
Definition handled (P : list id) (e : edge) : bool := existsb (Nat.eqb (e_src e)) P.
Definition free (done : edge -> bool) (v : id) : Prop := In v (node_ids g) /\ left_over done v = 0.

Lemma left_over_ext d d' v : (forall e, In e (g_edges g) -> d e = d' e) -> left_over d v = left_over d' v.
Proof. intros H. unfold left_over. f_equal. apply filter_ext_in. intros e He. apply in_edges_In in He. now rewrite H. Qed.
Lemma entries_ext d d' ns : (forall e, In e (g_edges g) -> d e = d' e) -> entries d ns = entries d' ns.
Proof. intros H. unfold entries. f_equal. apply map_ext. intros v. now rewrite (left_over_ext d d'). Qed.

Lemma children_spec es : forall done next, NoDup es -> incl es (g_edges g) -> (forall e, In e es -> done e = false) ->
  exists done' new, foldM visit_child (map e_dst es) (entries done (node_ids g), next) = Some (entries done' (node_ids g), next ++ new) /\
    (forall e, In e (g_edges g) -> done' e = true <-> done e = true \/ In e es) /\
    NoDup new /\ (forall v, In v new <-> left_over done v <> 0 /\ left_over done' v = 0 /\ In v (node_ids g)) /\ (forall v, left_over done v = 0 -> left_over done' v = 0).
Proof.
  induction es as [|e es IH]; intros done next N Hin Hd.
  - exists done, []. cbn [map foldM]. rewrite app_nil_r. split; [reflexivity|]. split; [intros e _; cbn; tauto|]. split; [constructor|]. split; [cbn; tauto|auto].
  - inversion N as [|? ? Ne N']; subst. assert (He : In e (g_edges g)) by (apply Hin; now left). assert (Hde : done e = false) by (apply Hd; now left).
    cbn [map foldM]. rewrite (visit_spec done e next He Hde).
    assert (Ha : forall x, In x (g_edges g) -> also done e x = true <-> done x = true \/ x = e).
    { intros x Hx. unfold also, is_edge. rewrite orb_true_iff, andb_true_iff, !Nat.eqb_eq. split; [intros [H|[H1 H2]]; [auto|right; now apply edge_unique]|intros [H| ->]; auto]. }
    destruct (IH (also done e) (if left_over (also done e) (e_dst e) =? 0 then next ++ [e_dst e] else next) N') as (done' & new & E1 & E2 & E3 & E4 & E5).
    + intros x Hx. apply Hin. now right.
    + intros x Hx. destruct (also done e x) eqn:X; [|reflexivity]. apply Ha in X; [|apply Hin; now right]. destruct X as [X| ->]; [rewrite (Hd x (or_intror Hx)) in X; discriminate|contradiction].
    + rewrite E1. exists done', ((if left_over (also done e) (e_dst e) =? 0 then [e_dst e] else []) ++ new). split; [|split; [|split; [|split]]].
      * do 2 f_equal. destruct (left_over (also done e) (e_dst e) =? 0); cbn [app]; [now rewrite <- app_assoc|reflexivity].
      * intros x Hx. rewrite E2, Ha by auto. cbn [In]. intuition congruence.
      * destruct (Nat.eqb_spec (left_over (also done e) (e_dst e)) 0) as [Z|Z]; [|exact E3]. cbn [app]. constructor; [|exact E3]. intros H. apply E4 in H. tauto.
      * intros v. pose proof (left_over_also done e v He Hde) as L. rewrite in_app_iff, E4.
        destruct (Nat.eqb_spec v (e_dst e)) as [Ev|Hne].
        -- rewrite Ev in *. rewrite L. destruct (Nat.eqb_spec (left_over (also done e) (e_dst e)) 0) as [Z|Z]; cbn [In].
           ++ split; [|tauto]. intros _. split; [discriminate|]. split; [now apply E5|now apply (wf_dst g Hwf)].
           ++ split; [intros [[]|H]; intuition discriminate|]. intros H. right. tauto.
        -- rewrite L. destruct (left_over (also done e) (e_dst e) =? 0); cbn [In]; [|tauto]. split; [intros [[H|[]]|H]; [congruence|tauto]|tauto].
      * intros v Hv. apply E5. rewrite (left_over_also done e v He Hde) in Hv. destruct (v =? e_dst e); [discriminate|exact Hv].
Qed.

Lemma units_spec us : forall P next, NoDup us -> (forall u, In u us -> ~ In u P) ->
  exists P' new, foldM (fun st u => foldM visit_child (subcircuits g u) st) us (entries (handled P) (node_ids g), next) = Some (entries (handled P') (node_ids g), next ++ new) /\
    (forall u, In u P' <-> In u P \/ In u us) /\
    NoDup new /\ (forall v, In v new <-> left_over (handled P) v <> 0 /\ left_over (handled P') v = 0 /\ In v (node_ids g)) /\ (forall v, left_over (handled P) v = 0 -> left_over (handled P') v = 0).
Proof.
  induction us as [|u us IH]; intros P next N Hd.
  - exists P, []. cbn [foldM]. rewrite app_nil_r. split; [reflexivity|]. split; [cbn; tauto|]. split; [constructor|]. split; [cbn; tauto|auto].
  - inversion N as [|? ? Nu N']; subst. cbn [foldM].
    destruct (children_spec (out_edges g u) (handled P) next) as (done' & new & E1 & E2 & E3 & E4 & E5).
    + apply NoDup_filter, edges_NoDup.
    + intros e He. now apply out_edges_In in He.
    + intros e He. apply out_edges_In in He. destruct He as [_ <-]. unfold handled. apply existsb_eqb_nIn. apply Hd. now left.
    + assert (Hdone : forall e, In e (g_edges g) -> done' e = handled (u :: P) e).
      { intros e He. apply eq_true_iff_eq. rewrite E2 by auto. unfold handled. rewrite !existsb_eqb_In, out_edges_In. cbn [In]. intuition. }
      fold (subcircuits g u) in E1. unfold subcircuits in *. rewrite E1, (entries_ext done' (handled (u :: P))) by auto.
      destruct (IH (u :: P) (next ++ new) N') as (P' & new' & F1 & F2 & F3 & F4 & F5).
      { intros w Hw [->|Hp]; [contradiction|]. apply (Hd w); [now right|exact Hp]. }
      rewrite F1. exists P', (new ++ new'). rewrite app_assoc. split; [reflexivity|]. assert (Ld : forall v, left_over done' v = left_over (handled (u :: P)) v) by (intros v; now apply left_over_ext).
      split; [intros w; rewrite F2; cbn [In]; tauto|]. split; [|split].
      * clear - E3 F3 E4 F4 Ld. induction E3 as [|a l Ha E3 IH]; [exact F3|]. cbn [app].
        assert (X : forall v, In v (a :: l) -> ~ In v new').
        { intros v Hv Hv'. apply E4 in Hv. apply F4 in Hv'. rewrite Ld in Hv. tauto. }
        constructor; [rewrite in_app_iff; intros [H|H]; [contradiction|exact (X a (or_introl eq_refl) H)]|].
        clear IH E4. assert (Y : forall v, In v l -> ~ In v new') by (intros v Hv; apply X; now right). clear - Y E3 F3. induction E3 as [|b l Hb E3 IH]; [exact F3|]. cbn [app].
        constructor; [rewrite in_app_iff; intros [H|H]; [contradiction|exact (Y b (or_introl eq_refl) H)]|]. apply IH. intros v Hv. apply Y. now right.
      * intros v. rewrite in_app_iff, E4, F4, Ld. destruct (Nat.eq_dec (left_over (handled (u :: P)) v) 0) as [Z|Z].
        -- rewrite Z. specialize (F5 v Z). intuition.
        -- assert (left_over (handled P) v <> 0) by (intros Z'; apply Z; rewrite <- Ld; now apply E5). intuition.
      * intros v Hv. apply F5. rewrite <- Ld. now apply E5.
Qed.

(** ** All generations *)
Definition before (a b : id) : Prop := exists e, In e (g_edges g) /\ reach g a (e_src e) /\ e_dst e = b.

Lemma before_edge e : In e (g_edges g) -> before (e_src e) (e_dst e).
Proof. intros He. exists e. split; [exact He|]. split; [apply reach_refl|reflexivity]. Qed.
Lemma before_trans a b c : before a b -> before b c -> before a c.
Proof.
  intros (e & H1 & H2 & <-) (e' & H3 & H4 & <-). exists e'. split; [exact H3|]. split; [|reflexivity]. apply (reach_trans g a (e_dst e)); [|exact H4]. now apply (reach_step g a (e_src e)).
Qed.

(** Units that all have a predecessor among themselves: walking backwards never ends, so they lie behind a cycle. *)
Lemma endless (Q : id -> Prop) : (forall v, Q v -> In v (node_ids g)) -> (forall v, Q v -> exists e, In e (g_edges g) /\ e_dst e = v /\ Q (e_src e)) ->
  (forall v, ~ before v v) -> forall v, ~ Q v.
Proof.
  intros Hn Hp Hc v Hv.
  assert (G : forall k, exists x l, length l = k /\ Forall Q (x :: l) /\ ForallOrdPairs before (x :: l)).
  { induction k as [|k IH].
    - exists v, []. split; [reflexivity|]. split; repeat constructor; auto.
    - destruct IH as (x & l & <- & HQ & HO). inversion HQ as [|? ? Qx Ql]; subst. destruct (Hp x Qx) as (e & He & <- & Qe). exists (e_src e), (e_dst e :: l).
      split; [reflexivity|]. split; [now constructor|]. constructor; [|exact HO]. inversion HO as [|? ? O1 O2]; subst. constructor; [now apply before_edge|].
      eapply Forall_impl; [|exact O1]. intros y Hy. apply (before_trans _ (e_dst e)); auto using before_edge. }
  destruct (G (length (node_ids g))) as (x & l & E & HQ & HO).
  assert (N : NoDup (x :: l)).
  { clear - HO Hc. induction HO as [|a l0 O1 O2 IH]; constructor; auto. intros Ha. rewrite Forall_forall in O1. exact (Hc a (O1 a Ha)). }
  assert (L : length (x :: l) <= length (node_ids g)).
  { apply NoDup_incl_length; [exact N|]. intros y Hy. rewrite Forall_forall in HQ. auto. }
  cbn [length] in L. lia.
Qed.

Lemma left_over_zero done v : left_over done v = 0 <-> forall e, In e (g_edges g) -> e_dst e = v -> done e = true.
Proof.
  unfold left_over. split.
  - intros H e He Hv. apply length_zero_iff_nil in H. destruct (done e) eqn:X; [reflexivity|]. exfalso.
    assert (In e []) as []. rewrite <- H. apply filter_In. split; [now apply in_edges_In|now rewrite X].
  - intros H. apply length_zero_iff_nil. apply incl_l_nil. intros e He. apply filter_In in He. destruct He as [He X]. apply in_edges_In in He. now rewrite (H e) in X by tauto.
Qed.

Lemma entries_nil done : entries done (node_ids g) = [] <-> forall v, In v (node_ids g) -> left_over done v = 0.
Proof.
  unfold entries. generalize (node_ids g) as ns. induction ns as [|v ns IH]; [cbn; tauto|]. cbn [map filter snd In]. split.
  - destruct (Nat.ltb_spec 0 (left_over done v)) as [H|H]; [discriminate|]. intros E w [<-|Hw]; [lia|]. now apply IH.
  - intros H. rewrite (H v (or_introl eq_refl)). cbn [Nat.ltb Nat.leb]. apply IH. auto.
Qed.

(** What holds between two generations: [P] is done, [zero] is next. *)
Record between (P zero : list id) : Prop := {
  bt_P : NoDup P;
  bt_zero : NoDup zero;
  bt_apart : forall u, In u zero -> ~ In u P;
  bt_free : forall v, In v P \/ In v zero <-> In v (node_ids g) /\ left_over (handled P) v = 0;
  bt_back : forall v, In v P -> forall w, before w v -> In w P;
  bt_cycle : forall v, In v P -> ~ before v v
}.

Lemma before_last a b : before a b -> exists e, In e (g_edges g) /\ e_dst e = b /\ (a = e_src e \/ before a (e_src e)).
Proof.
  intros (e & H1 & H2 & H3). exists e. split; [exact H1|]. split; [exact H3|]. inversion H2 as [E|v e' R He E1 E2]; [now left|right]. subst. exists e'. auto.
Qed.

Lemma generations_spec : forall fuel P zero, between P zero -> length P + fuel > length (node_ids g) ->
  exists b, generations g fuel (entries (handled P) (node_ids g)) zero = Some b /\ (b = true <-> forall v, ~ before v v).
Proof.
  induction fuel as [|f IH]; intros P zero [B1 B2 B3 B4 B5 B6] Hf.
  - assert (length P <= length (node_ids g)) by (apply NoDup_incl_length; [exact B1|]; intros v Hv; apply B4; now left). lia.
  - destruct zero as [|z zero].
    + cbn [generations]. eexists. split; [reflexivity|]. split.
      * intros E v Hv. assert (E' : entries (handled P) (node_ids g) = []) by (destruct (entries (handled P) (node_ids g)); [reflexivity|discriminate]).
        rewrite entries_nil in E'. apply (B6 v); [|exact Hv]. destruct Hv as (e & He & _ & <-). destruct (proj2 (B4 (e_dst e))) as [H|[]]; [|exact H].
        split; [now apply (wf_dst g Hwf)|]. apply E'. now apply (wf_dst g Hwf).
      * intros Hc. assert (E' : entries (handled P) (node_ids g) = []); [|now rewrite E'].
        apply entries_nil. intros v Hv. destruct (Nat.eq_dec (left_over (handled P) v) 0) as [Z|Z]; [exact Z|exfalso].
        apply (endless (fun v => In v (node_ids g) /\ left_over (handled P) v <> 0)) with (v := v); [tauto| |exact Hc|tauto].
        clear v Hv Z. intros v [Hv Z]. unfold left_over in Z. destruct (filter (fun e => negb (handled P e)) (in_edges g v)) as [|e l] eqn:E; [now destruct Z|].
        assert (He : In e (filter (fun e => negb (handled P e)) (in_edges g v))) by (rewrite E; now left). apply filter_In in He. destruct He as [He X]. apply in_edges_In in He.
        exists e. split; [tauto|]. split; [tauto|]. split; [now apply (wf_src g Hwf)|]. intros Z'. destruct (proj2 (B4 (e_src e))) as [H|[]]; [split; [now apply (wf_src g Hwf)|exact Z']|].
        apply negb_true_iff in X. unfold handled in X. apply existsb_eqb_nIn in X. contradiction.
    + cbn [generations]. set (us := z :: zero) in *. destruct (units_spec us P [] B2 B3) as (P' & new & E1 & E2 & E3 & E4 & E5). rewrite E1. cbn [app].
      set (P2 := P ++ us). assert (HP2 : forall u, In u P2 <-> In u P') by (intros u; unfold P2; rewrite in_app_iff, E2; tauto).
      assert (Hh : forall e, handled P' e = handled P2 e) by (intros e; apply eq_true_iff_eq; unfold handled; rewrite !existsb_eqb_In; symmetry; apply HP2).
      rewrite (entries_ext (handled P') (handled P2)) by auto.
      assert (L2 : forall v, left_over (handled P') v = left_over (handled P2) v) by (intros v; now apply left_over_ext).
      assert (Hback : forall v, In v P2 -> forall w, before w v -> In w P).
      { assert (Hsrc : forall e, In e (g_edges g) -> In (e_dst e) P2 -> In (e_src e) P).
        { intros e He Hv. assert (Hz : left_over (handled P) (e_dst e) = 0) by (apply B4; unfold P2 in Hv; now apply in_app_iff in Hv). pose proof (proj1 (left_over_zero _ _) Hz e He eq_refl) as X.
          now apply existsb_eqb_In in X. }
        intros v Hv w Hw. apply before_last in Hw. destruct Hw as (e & He & <- & Hw). pose proof (Hsrc e He Hv) as Hs. destruct Hw as [->|Hw]; [exact Hs|]. exact (B5 _ Hs w Hw). }
      apply IH.
      * constructor.
        -- unfold P2. apply NoDup_app_intro; auto. intros u Hu Hz. exact (B3 u Hz Hu).
        -- exact E3.
        -- intros u Hu Hp. apply E4 in Hu. unfold P2 in Hp. apply in_app_iff in Hp. destruct (B4 u) as [X _]. specialize (X Hp). tauto.
        -- intros v. rewrite E4, <- L2. split.
           ++ intros [H|H]; [|tauto]. unfold P2 in H. apply in_app_iff in H. apply B4 in H. split; [tauto|]. apply E5. tauto.
           ++ intros [H1 H2]. destruct (Nat.eq_dec (left_over (handled P) v) 0) as [Z|Z]; [left|right; tauto]. unfold P2. apply in_app_iff. now apply B4.
        -- intros v Hv w Hw. unfold P2. apply in_app_iff. left. exact (Hback v Hv w Hw).
        -- intros v Hv Hw. pose proof (Hback v Hv v Hw) as Hp. exact (B6 v Hp Hw).
      * unfold P2, us. rewrite app_length. cbn [length]. lia.
Qed.

Lemma acyclic_spec : exists b, is_directed_acyclic_graph g = Some b /\ (b = true <-> forall v, ~ before v v).
Proof.
  unfold is_directed_acyclic_graph. assert (X : forall v, left_over (handled []) v = in_degree g v).
  { intros v. unfold left_over, in_degree, handled. cbn [existsb negb]. f_equal. induction (in_edges g v) as [|e l IH]; [reflexivity|]. cbn [filter]. now rewrite IH. }
  assert (E : indegree_map g = entries (handled []) (node_ids g)).
  { unfold indegree_map, entries. f_equal. apply map_ext. intros v. now rewrite X. }
  rewrite E. apply generations_spec; [|cbn; lia]. constructor.
  - constructor.
  - apply NoDup_filter, (wf_nodes g Hwf).
  - intros u _ [].
  - intros v. unfold zero_indegree. rewrite filter_In, Nat.eqb_eq, X. cbn [In]. tauto.
  - intros v [].
  - intros v [].
Qed.

(** ** Weakly connected components *)
Inductive linked (u : id) : id -> Prop :=
| linked_refl : linked u u
| linked_down e : linked u (e_src e) -> In e (g_edges g) -> linked u (e_dst e)
| linked_up e : linked u (e_dst e) -> In e (g_edges g) -> linked u (e_src e).

Definition neighbours (u : id) : list id := subcircuits g u ++ parents g u.

Lemma neighbours_In u v : In v (neighbours u) <-> exists e, In e (g_edges g) /\ (e_src e = u /\ e_dst e = v \/ e_dst e = u /\ e_src e = v).
Proof.
  unfold neighbours, parents. rewrite in_app_iff, subcircuits_In, in_map_iff. split.
  - intros [(e & H1 & H2 & H3)|(e & H1 & H2)]; [exists e; tauto|]. apply in_edges_In in H2. exists e. tauto.
  - intros (e & He & [H|H]); [left; exists e; tauto|right; exists e]. split; [tauto|]. apply in_edges_In. tauto.
Qed.

Lemma linked_neighbour s u v : linked s u -> In v (neighbours u) -> linked s v.
Proof. intros H Hv. apply neighbours_In in Hv. destruct Hv as (e & He & [[<- <-]|[<- <-]]); [now apply linked_down|now apply linked_up]. Qed.

Lemma linked_trans u v w : linked u v -> linked v w -> linked u w.
Proof. intros H. induction 1 as [|e _ IH He|e _ IH He]; [exact H|now apply linked_down|now apply linked_up]. Qed.
Lemma linked_sym u v : linked u v -> linked v u.
Proof.
  induction 1 as [|e _ IH He|e _ IH He]; [apply linked_refl| |].
  - apply (linked_trans _ (e_src e)); [|exact IH]. apply linked_up; [apply linked_refl|exact He].
  - apply (linked_trans _ (e_dst e)); [|exact IH]. apply linked_down; [apply linked_refl|exact He].
Qed.

Lemma expand_level_spec level : forall seen next seen' next', expand_level g level seen next = (seen', next') ->
  exists new, next' = next ++ new /\ seen' = rev new ++ seen /\ NoDup new /\
    (forall x, In x new -> ~ In x seen /\ exists u, In u level /\ In x (neighbours u)) /\
    (forall u x, In u level -> In x (neighbours u) -> In x seen').
Proof.
  induction level as [|u level IH]; cbn [expand_level]; intros seen next seen' next' H.
  - injection H as <- <-. exists []. rewrite app_nil_r. split; [reflexivity|]. split; [reflexivity|]. split; [constructor|]. split; [intros x []|intros u x []].
  - destruct (expand_children (subcircuits g u ++ parents g u) seen next) as [seen1 next1] eqn:E.
    apply expand_children_spec in E. destruct E as (n1 & -> & -> & Hnd1 & Hn1 & Hc1). apply IH in H. destruct H as (n2 & -> & -> & Hnd2 & Hn2 & Hc2).
    exists (n1 ++ n2). split; [now rewrite app_assoc|]. split; [now rewrite rev_app_distr, <- app_assoc|]. split; [|split].
    + apply NoDup_app_intro; auto. intros x H1 H2. apply Hn2 in H2. apply (proj1 H2). apply in_app_iff. left. now apply in_rev in H1.
    + intros x Hx. apply in_app_iff in Hx. destruct Hx as [Hx|Hx].
      * apply Hn1 in Hx. split; [tauto|]. exists u. split; [now left|]. unfold neighbours. tauto.
      * apply Hn2 in Hx. destruct Hx as [H1 (w & Hw & H2)]. split; [intros H; apply H1; apply in_app_iff; now right|]. exists w. split; [now right|exact H2].
    + intros w x [<-|Hw] Hx.
      * apply in_app_iff. right. now apply Hc1.
      * now apply (Hc2 w x).
Qed.

Lemma plain_bfs_spec s : In s (node_ids g) -> forall fuel level seen, NoDup seen -> (forall v, In v seen -> linked s v /\ In v (node_ids g)) -> In s seen -> incl level seen ->
  (forall u v, In u seen -> ~ In u level -> In v (neighbours u) -> In v seen) -> length seen + fuel > length (node_ids g) ->
  exists res, plain_bfs g fuel level seen = Some res /\ (length res =? length (node_ids g) = true <-> forall v, In v (node_ids g) -> linked s v).
Proof.
  intros Hs. assert (Full : forall l, NoDup l -> (forall v, In v l -> linked s v /\ In v (node_ids g)) -> length l = length (node_ids g) -> forall v, In v (node_ids g) -> linked s v).
  { intros l N H L v Hv. apply H. assert (X : incl (node_ids g) l); [|now apply X]. apply (NoDup_length_incl N); [rewrite L; apply le_n|]. intros w Hw. now apply H. }
  assert (Closed : forall l, NoDup l -> (forall v, In v l -> linked s v /\ In v (node_ids g)) -> In s l -> (forall a b, In a l -> In b (neighbours a) -> In b l) ->
    (forall v, In v (node_ids g) -> linked s v) -> length l = length (node_ids g)).
  { intros l N H Hl Hall HL. assert (Hc : forall v, linked s v -> In v l).
    { induction 1 as [|e _ IHl He|e _ IHl He]; [exact Hl| |].
      - apply (Hall (e_src e)); auto. apply neighbours_In. exists e. tauto.
      - apply (Hall (e_dst e)); auto. apply neighbours_In. exists e. tauto. }
    apply Nat.le_antisymm; apply NoDup_incl_length; [exact N|intros v Hv; now apply H|apply (wf_nodes g Hwf)|intros v Hv; auto]. }
  induction fuel as [|f IH]; intros level seen N H1 H2 H3 H4 Hf.
  - assert (length seen <= length (node_ids g)) by (apply NoDup_incl_length; [exact N|]; intros v Hv; now apply H1). lia.
  - destruct level as [|u level].
    + cbn [plain_bfs]. exists seen. split; [reflexivity|]. rewrite Nat.eqb_eq. split; [now apply Full|]. apply Closed; auto. intros a b Ha Hb. now apply (H4 a b).
    + cbn [plain_bfs]. destruct (expand_level g (u :: level) seen []) as [seen' next] eqn:E. apply expand_level_spec in E. destruct E as (new & -> & -> & Hnd & Hnew & Hclosed). cbn [app].
      assert (N' : NoDup (rev new ++ seen)).
      { apply NoDup_app_intro; [now apply NoDup_rev|exact N|]. intros x Hx. apply in_rev in Hx. now apply Hnew. }
      assert (H1' : forall v, In v (rev new ++ seen) -> linked s v /\ In v (node_ids g)).
      { intros v Hv. apply in_app_iff in Hv. destruct Hv as [Hv|Hv]; [|now apply H1]. apply in_rev in Hv. apply Hnew in Hv. destruct Hv as (_ & w & Hw & Hv). split.
        - apply (linked_neighbour s w); [|exact Hv]. apply H1. now apply H3.
        - apply neighbours_In in Hv. destruct Hv as (e & He & [[_ <-]|[_ <-]]); [now apply (wf_dst g Hwf)|now apply (wf_src g Hwf)]. }
      destruct (Nat.eqb_spec (length (rev new ++ seen)) (length (node_ids g))) as [L|L].
      * eexists. split; [reflexivity|]. rewrite L, Nat.eqb_refl. split; [intros _; now apply (Full _ N' H1')|reflexivity].
      * destruct new as [|x new].
        { (* nothing new: the next level is empty *)
          cbn [rev app] in *. assert (plain_bfs g f [] seen = Some seen) as -> by now destruct f. exists seen. split; [reflexivity|]. rewrite Nat.eqb_eq. split; [now apply Full|]. apply Closed; auto.
          intros a b Ha Hb. destruct (in_dec Nat.eq_dec a (u :: level)) as [Hl|Hl]; [now apply (Hclosed a b)|now apply (H4 a b)]. }
        apply IH; auto.
        -- apply in_app_iff. now right.
        -- intros v Hv. apply in_app_iff. left. now apply in_rev in Hv.
        -- intros a b Ha Hn Hb. apply in_app_iff in Ha. destruct Ha as [Ha|Ha]; [exfalso; apply Hn; now apply in_rev|].
           destruct (in_dec Nat.eq_dec a (u :: level)) as [Hl|Hl]; [now apply (Hclosed a b)|]. apply in_app_iff. right. now apply (H4 a b).
        -- rewrite app_length, rev_length. cbn [length]. lia.
Qed.

Lemma connected_spec : node_ids g <> [] -> exists b, is_weakly_connected g = Some b /\ (b = true <-> forall u v, In u (node_ids g) -> In v (node_ids g) -> linked u v).
Proof.
  intros Hne. unfold is_weakly_connected. destruct (node_ids g) as [|s ns] eqn:E; [congruence|]. rewrite <- E.
  assert (Hs : In s (node_ids g)) by (rewrite E; now left).
  destruct (plain_bfs_spec s Hs (S (length (node_ids g))) [s] [s]) as (res & R1 & R2).
  - repeat constructor; cbn; tauto.
  - intros v [<-|[]]. split; [apply linked_refl|exact Hs].
  - now left.
  - intros v Hv. exact Hv.
  - intros u v Hu Hn. contradiction.
  - cbn [length]. lia.
  - rewrite R1. eexists. split; [reflexivity|]. rewrite R2. split; [|auto]. intros H u v Hu Hv. apply (linked_trans _ s); [apply linked_sym|]; auto.
Qed.
End Facts.
