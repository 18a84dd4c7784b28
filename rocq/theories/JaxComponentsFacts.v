(** * JaxComponentsFacts: how many leaves and edges to_nx writes *)
From Coq Require Import List Arith Bool Lia Permutation Reals ZArith.
From Verif Require Import Num Graph GraphFacts Circuit EvalFacts Interval Dist Simplify SimplifyFacts JaxLayer JaxLayerFacts JaxSpec JaxMeaning JaxToNx JaxToNxFacts JaxComponents.
Import ListNotations.
Local Set Bullet Behavior "Strict Subproofs".
Local Open Scope nat_scope.

Definition pairs (g : ngraph) : list (id * id) := map (fun e => (e_src e, e_dst e)) (g_edges g).
Definition leaf_units (g : ngraph) : list (id * ukind dist) := filter (fun p => match snd p with ULeaf _ => true | _ => false end) (g_nodes g).
Definition count (g : ngraph) : nat := length (leaf_units g) + length (g_edges g).
Definition pair_dec (x y : id * id) : {x = y} + {x <> y}.
Proof. decide equality; apply Nat.eq_dec. Defined.
Definition triple_dec (x y : nat * nat * nat) : {x = y} + {x <> y}.
Proof. decide equality; [apply Nat.eq_dec|apply pair_dec]. Defined.

(** ** Lists without repetitions *)
Lemma nodup_app_length {A} dec (x y : list A) : (forall a, In a x -> In a y -> False) -> length (nodup dec (x ++ y)) = length (nodup dec x) + length (nodup dec y).
Proof.
  induction x as [|a x IH]; intros H; [reflexivity|]. cbn [app nodup]. specialize (IH (fun b Hb => H b (or_intror Hb))).
  destruct (in_dec dec a (x ++ y)) as [I1|I1], (in_dec dec a x) as [I2|I2]; cbn [length]; try lia; exfalso.
  - apply in_app_or in I1. destruct I1 as [I1|I1]; [auto|]. exact (H a (or_introl eq_refl) I1).
  - apply I1, in_or_app. now left.
Qed.

Lemma nodup_map_length {A B} da db (f : A -> B) l : (forall x y, In x l -> In y l -> f x = f y -> x = y) -> length (nodup db (map f l)) = length (nodup da l).
Proof.
  induction l as [|a l IH]; intros H; [reflexivity|]. cbn [map nodup]. assert (E := IH (fun x y Hx Hy => H x y (or_intror Hx) (or_intror Hy))).
  destruct (in_dec db (f a) (map f l)) as [I1|I1], (in_dec da a l) as [I2|I2]; cbn [length]; try lia; exfalso.
  - apply in_map_iff in I1. destruct I1 as (x & E1 & Hx). apply I2. rewrite <- (H x a (or_intror Hx) (or_introl eq_refl) E1). exact Hx.
  - apply I1. now apply in_map.
Qed.

Lemma nodup_length_le {A} dec (l : list A) : length (nodup dec l) <= length l.
Proof. induction l as [|a l IH]; [apply le_n|]. cbn [nodup]. destruct (in_dec dec a l); cbn [length]; lia. Qed.

Lemma nodup_length_eq {A} dec (l : list A) : length (nodup dec l) = length l <-> NoDup l.
Proof.
  split.
  - induction l as [|a l IH]; [constructor|]. cbn [nodup]. pose proof (nodup_length_le dec l). destruct (in_dec dec a l); cbn [length]; intros E; [lia|]. constructor; [assumption|]. apply IH. lia.
  - intros H. now rewrite nodup_fixed_point.
Qed.

(** ** Edges *)
Lemma add_edge_pairs g u v lw : pairs (add_edge g u v lw) = if existsb (is_edge u v) (g_edges g) then pairs g else pairs g ++ [(u, v)].
Proof.
  unfold pairs, add_edge. destruct (existsb (is_edge u v) (g_edges g)); cbn [g_edges].
  - rewrite map_map. apply map_ext. intros e. destruct (is_edge u v e) eqn:E; [|reflexivity]. unfold is_edge in E. apply andb_prop in E. destruct E as [E1 E2]. apply Nat.eqb_eq in E1, E2. cbn [e_src e_dst]. congruence.
  - now rewrite map_app.
Qed.

Lemma is_edge_pairs g u v : existsb (is_edge u v) (g_edges g) = true <-> In (u, v) (pairs g).
Proof.
  rewrite existsb_exists. unfold pairs. rewrite in_map_iff. split.
  - intros (e & He & E). exists e. split; [|exact He]. unfold is_edge in E. apply andb_prop in E. destruct E as [E1 E2]. apply Nat.eqb_eq in E1, E2. congruence.
  - intros (e & E & He). exists e. split; [exact He|]. injection E as E1 E2. unfold is_edge. now rewrite E1, E2, !Nat.eqb_refl.
Qed.

Lemma add_edge_nodes (g : ngraph) u v lw : g_nodes (add_edge g u v lw) = g_nodes g.
Proof. unfold add_edge. now destruct (existsb _ _). Qed.

Lemma add_all_nodes l : forall g, g_nodes (add_all l g) = g_nodes g.
Proof. induction l as [|a l IH]; intros g; [reflexivity|]. cbn [add_all fold_left]. fold (add_all l). etransitivity; [apply IH|apply add_edge_nodes]. Qed.

Lemma add_all_pairs l : forall g, NoDup (pairs g) -> NoDup (pairs (add_all l g)) /\ forall p, In p (pairs (add_all l g)) <-> In p (pairs g) \/ In p (map fst l).
Proof.
  induction l as [|[[u v] lw] l IH]; intros g N; [split; [exact N|]; cbn; tauto|]. cbn [add_all fold_left fst snd]. fold (add_all l).
  assert (X : NoDup (pairs (add_edge g u v lw)) /\ forall p, In p (pairs (add_edge g u v lw)) <-> In p (pairs g) \/ p = (u, v)).
  { rewrite add_edge_pairs. destruct (existsb (is_edge u v) (g_edges g)) eqn:E.
    - apply is_edge_pairs in E. split; [exact N|]. intros p. split; [now left|]. intros [H| ->]; assumption.
    - assert (Hn : ~ In (u, v) (pairs g)) by (intros H; apply is_edge_pairs in H; congruence). split.
      + apply NoDup_app_intro; [exact N|repeat constructor; intros []|]. intros x Hx [<-|[]]. contradiction.
      + intros p. rewrite in_app_iff. cbn. intuition. }
  destruct X as [X1 X2]. destruct (IH _ X1) as [Y1 Y2]. split; [exact Y1|]. intros p. etransitivity; [apply Y2|]. rewrite X2. cbn [map fst In]. intuition.
Qed.

Lemma add_all_count l g : NoDup (pairs g) -> (forall p, In p (pairs g) -> In p (map fst l) -> False) ->
  count (add_all l g) = count g + length (nodup pair_dec (map fst l)).
Proof.
  intros N D. unfold count, leaf_units. rewrite add_all_nodes. destruct (add_all_pairs l g N) as [N' I'].
  assert (P : Permutation (pairs (add_all l g)) (pairs g ++ nodup pair_dec (map fst l))).
  { apply NoDup_Permutation; [exact N'| |].
    - apply NoDup_app_intro; [exact N|apply NoDup_nodup|]. intros p H1 H2. apply nodup_In in H2. exact (D p H1 H2).
    - intros p. rewrite I', in_app_iff, nodup_In. tauto. }
  apply Permutation_length in P. unfold pairs in P. rewrite app_length, !map_length in P. lia.
Qed.

(** ** Which edges are added *)
Lemma foldM_connect_some units child l : forall g g', foldM (connect units child) l g = Some g' ->
  forall e, In e l -> fst (fst e) < length units /\ snd (fst e) < length child.
Proof.
  induction l as [|a l IH]; intros g g' H e He; [destruct He|]. cbn [foldM] in H. unfold connect at 1 in H.
  destruct (nth_error units (fst (fst a))) eqn:E1; [|discriminate]. destruct (nth_error child (snd (fst a))) eqn:E2; [|discriminate].
  destruct He as [<-|He]; [|exact (IH _ _ H e He)]. split; apply nth_error_Some; congruence.
Qed.

Lemma sum_edges_some units additions children : forall g g', sum_edges units additions children g = Some g' ->
  forall a c e, In (a, c) (combine additions children) -> In e a -> fst (fst e) < length units /\ snd (fst e) < length c.
Proof.
  unfold sum_edges. induction (combine additions children) as [|[a c] l IH]; intros g g' H a' c' e Hac He; [destruct Hac|]. cbn [foldM fst snd] in H.
  destruct (foldM (connect units c) a g) as [g1|] eqn:E; [|discriminate]. destruct Hac as [X|Hac]; [injection X as <- <-; exact (foldM_connect_some _ _ _ _ _ E e He)|exact (IH _ _ H a' c' e Hac He)].
Qed.

Lemma product_edges_some units edges children g g' : product_edges units edges children g = Some g' ->
  forall e, In e (s_entries edges) -> fst (fst e) < length children /\ snd (fst e) < length units /\ snd e < length (nth (fst (fst e)) children []).
Proof.
  unfold product_edges. revert g. induction (s_entries edges) as [|a l IH]; intros g H e He; [destruct He|]. cbn [foldM] in H.
  destruct (nth_error children (fst (fst a))) as [child|] eqn:E0; [|discriminate]. unfold connect in H at 1. cbn [fst snd] in H.
  destruct (nth_error units (snd (fst a))) eqn:E1; [|discriminate]. destruct (nth_error child (snd a)) eqn:E2; [|discriminate].
  destruct He as [<-|He]; [|exact (IH _ H e He)]. split; [apply nth_error_Some; congruence|]. split; [apply nth_error_Some; congruence|].
  rewrite (nth_error_nth _ _ [] E0). apply nth_error_Some. congruence.
Qed.

Lemma normalize_pairs units : forall g g', normalize_units units g = Some g' -> g_nodes g' = g_nodes g /\ pairs g' = pairs g.
Proof.
  unfold normalize_units. induction units as [|u us IH]; intros g g' H; cbn [foldM] in H; [injection H as <-; auto|].
  destruct (sum_normalize g u) as [g1|] eqn:E; [|discriminate]. destruct (IH _ _ H) as [-> ->]. unfold sum_normalize in E.
  destruct (log_weighted_subcircuits g u) as [[|x l]|]; try discriminate. injection E as <-. split; [reflexivity|]. unfold pairs, set_weights. cbn [g_edges]. rewrite map_map. apply map_ext. intros e. now destruct (e_src e =? u).
Qed.

(** ** What a conversion leaves behind *)
Definition tame (g : ngraph) : Prop := NoDup (pairs g) /\ forall p, In p (pairs g) -> fst p < nsize g.
Definition grown (g g' : ngraph) (ids : list id) (k : nat) : Prop :=
  tame g' /\ nsize g <= nsize g' /\ (forall p, In p (pairs g') -> fst p < nsize g -> In p (pairs g)) /\ (forall u, In u ids -> nsize g <= u < nsize g') /\ NoDup ids /\
  count g' = count g + k.
Definition grows (f : ngraph -> option (ngraph * list id)) (k : nat) : Prop := forall g g' ids, tame g -> f g = Some (g', ids) -> grown g g' ids k.

Lemma all_to_nx_grown fs : forall ks, Forall2 grows fs ks -> forall g g' idss, tame g -> all_to_nx fs g = Some (g', idss) -> grown g g' (concat idss) (total ks) /\ length idss = length fs.
Proof.
  intros ks H. induction H as [|f k fs ks Hf _ IH]; intros g g' idss T E; cbn [all_to_nx] in E.
  - injection E as <- <-. split; [|reflexivity]. split; [exact T|]. split; [lia|]. split; [auto|]. split; [intros u []|]. split; [constructor|]. cbn. lia.
  - destruct (f g) as [[g1 ids]|] eqn:E1; [|discriminate]. destruct (all_to_nx fs g1) as [[g2 idss']|] eqn:E2; [|discriminate]. injection E as <- <-.
    destruct (Hf _ _ _ T E1) as (T1 & S1 & P1 & B1 & N1 & C1). destruct (IH _ _ _ T1 E2) as ((T2 & S2 & P2 & B2 & N2 & C2) & L2). split; [|cbn; lia]. split; [exact T2|]. split; [lia|]. split; [|split; [|split]].
    + intros p Hp Hl. apply P1; [|exact Hl]. apply P2; [exact Hp|]. lia.
    + intros u Hu. cbn in Hu. apply in_app_or in Hu. destruct Hu as [Hu|Hu]; [apply B1 in Hu|apply B2 in Hu]; lia.
    + cbn. apply NoDup_app_intro; auto. intros u H1 H2. apply B1 in H1. apply B2 in H2. lia.
    + cbn [total fold_right]. fold (total ks). lia.
Qed.

Lemma add_units_grown ks g g' ids : tame g -> add_units ks g = (g', ids) ->
  grown g g' ids (length (filter (fun k => match k with ULeaf _ => true | _ => false end) ks)) /\ pairs g' = pairs g /\ ids = seq (nsize g) (length ks) /\ nsize g' = nsize g + length ks.
Proof.
  intros T E. unfold add_units in E. injection E as <- <-. fold (nsize g).
  assert (Sz : nsize (mkGraph (g_nodes g ++ combine (seq (nsize g) (length ks)) ks) (g_edges g)) = nsize g + length ks) by (unfold nsize; cbn [g_nodes]; rewrite app_length, combine_length, seq_length, Nat.min_id; reflexivity).
  split; [|split; [reflexivity|split; [reflexivity|exact Sz]]]. split; [|split; [|split; [|split; [|split]]]].
  - destruct T as [T1 T2]. split; [exact T1|]. intros p Hp. rewrite Sz. specialize (T2 p Hp). lia.
  - lia.
  - intros p Hp _. exact Hp.
  - intros u Hu. apply in_seq in Hu. lia.
  - apply seq_NoDup.
  - unfold count, leaf_units. cbn [g_nodes g_edges]. rewrite filter_app, app_length. enough (X : forall n, length (filter (fun p : id * ukind dist => match snd p with ULeaf _ => true | _ => false end) (combine (seq n (length ks)) ks)) = length (filter (fun k => match k with ULeaf _ => true | _ => false end) ks)) by (rewrite X; lia).
    induction ks as [|k ks IH]; intros n; [reflexivity|]. cbn [length seq combine filter snd]. destruct k; cbn [length]; rewrite <- IH with (n := S n); try reflexivity; exact (eq_sym Sz) || (unfold nsize; cbn [g_nodes]; rewrite app_length, combine_length, seq_length, Nat.min_id; reflexivity).
Qed.

(** Edges from the new units [seq (nsize g) m] are added to [g2]. *)
Lemma edges_grown g g2 idss m k1 k2 l : tame g -> tame g2 -> nsize g + m <= nsize g2 -> (forall p, In p (pairs g2) -> fst p < nsize g + m -> In p (pairs g)) ->
  count g2 = count g + k1 -> length (nodup pair_dec (map fst l)) = k2 -> (forall a, In a l -> nsize g <= fst (fst a) < nsize g + m) ->
  idss = seq (nsize g) m -> grown g (add_all l g2) idss (k1 + k2).
Proof.
  intros T T2 Sz P C2 K B ->. destruct (add_all_pairs l g2 (proj1 T2)) as [N' I']. assert (Sz' : nsize (add_all l g2) = nsize g2) by (unfold nsize; now rewrite add_all_nodes).
  assert (Bl : forall p, In p (map fst l) -> nsize g <= fst p < nsize g + m) by (intros p Hp; apply in_map_iff in Hp; destruct Hp as (a & <- & Ha); auto).
  split; [split; [exact N'|]|split; [lia|split; [|split; [|split]]]].
  - intros p Hp. apply I' in Hp. rewrite Sz'. destruct Hp as [Hp|Hp]; [now apply T2|]. apply Bl in Hp. lia.
  - intros p Hp Hl. apply I' in Hp. destruct Hp as [Hp|Hp]; [apply P; [exact Hp|lia]|]. apply Bl in Hp. lia.
  - intros u Hu. apply in_seq in Hu. lia.
  - apply seq_NoDup.
  - rewrite add_all_count, C2, K; [lia|apply T2|]. intros p H1 H2. apply Bl in H2. assert (Hp := P p H1 (proj2 H2)). apply (proj2 T) in Hp. lia.
Qed.

Lemma flat_sum_count base m acs : NoDup (concat (map snd acs)) ->
  (forall a c e, In (a, c) acs -> In e a -> fst (fst e) < m /\ snd (fst e) < length c) ->
  length (nodup pair_dec (map fst (flat_sum (seq base m) acs))) = total (map (fun ac => length (nodup pair_dec (map fst (fst ac)))) acs).
Proof.
  unfold flat_sum. induction acs as [|[a c] acs IH]; intros Hn Hb; [reflexivity|]. cbn [map concat fst snd total fold_right]. fold (total (map (fun ac : list (nat * nat * option num) * list id => length (nodup pair_dec (map fst (fst ac)))) acs)). cbn [map concat snd] in Hn.
  rewrite map_app, nodup_app_length.
  - f_equal; [|apply IH; [exact (NoDup_app_r _ _ Hn)|intros a' c' e' H1 H2; apply (Hb a' c' e'); [now right|exact H2]]].
    rewrite map_map. cbn [fst]. rewrite <- (map_map fst (fun rc => (nth (fst rc) (seq base m) 0, nth (snd rc) c 0))). apply nodup_map_length.
    intros x y Hx Hy E. apply in_map_iff in Hx, Hy. destruct Hx as (e & <- & He), Hy as (e' & <- & He'). destruct (Hb a c e (or_introl eq_refl) He) as [B1 B2]. destruct (Hb a c e' (or_introl eq_refl) He') as [B3 B4].
    injection E as E1 E2. rewrite !seq_nth_base in E1 by assumption. apply nth_inj in E2; [|exact (NoDup_app_l _ _ Hn)|assumption|assumption]. destruct (fst e), (fst e'). cbn in *. f_equal; lia.
  - intros [u v] H1 H2. rewrite map_map in H1. apply in_map_iff in H1. destruct H1 as (e & E & He). cbn [fst] in E. inversion E; subst u v.
    apply in_map_iff in H2. destruct H2 as (x & Ex & Hx). apply in_concat in Hx. destruct Hx as (l & Hl & Hx). apply in_map_iff in Hl. destruct Hl as ([a' c'] & <- & Hac). cbn [fst snd] in Hx. apply in_map_iff in Hx. destruct Hx as (e' & <- & He'). cbn [fst] in Ex. inversion Ex as [[E1 E2]].
    destruct (Hb a c e (or_introl eq_refl) He) as [_ B2]. destruct (Hb a' c' e' (or_intror Hac) He') as [_ B4].
    assert (X1 : In (nth (snd (fst e)) c 0) c) by (now apply nth_In). assert (X2 : In (nth (snd (fst e)) c 0) (concat (map snd acs))). { apply in_concat. exists c'. split; [apply in_map_iff; now exists (a', c')|]. pose proof (nth_In c' 0 B4) as Z. unfold id in *. rewrite E2 in Z. exact Z. }
    exact (disjoint_of_NoDup _ _ _ Hn X1 X2).
Qed.

Lemma concat_snd_combine {A B} (a : list A) (b : list (list B)) : NoDup (concat b) -> NoDup (concat (map snd (combine a b))).
Proof.
  revert b. induction a as [|x a IH]; intros [|y b] H; cbn in *; try constructor. apply NoDup_app_intro; [exact (NoDup_app_l _ _ H)|apply IH; exact (NoDup_app_r _ _ H)|].
  intros v H1 H2. apply (disjoint_of_NoDup _ _ v H H1). clear -H2. revert b H2. induction a as [|x a IH]; intros [|z b] H2; cbn in *; try tauto. apply in_app_or in H2. apply in_or_app. destruct H2; auto.
Qed.

Lemma sum_grown n bar (P : list (list (nat * nat * option num))) cs ks m g g' ids :
  Forall2 grows (map (to_nx n bar) cs) ks -> tame g ->
  (let '(g1, units) := add_units (repeat USum m) g in
    match all_to_nx (map (to_nx n bar) cs) g1 with
    | None => None
    | Some (g2, children) =>
        match sum_edges units P children g2 with
        | None => None
        | Some g3 => match normalize_units units g3 with None => None | Some g4 => Some (g4, units) end
        end
    end) = Some (g', ids) ->
  grown g g' ids (total ks + total (map (fun a => length (nodup pair_dec (map fst (fst a)))) (combine P cs))).
Proof.
  intros HC T E. destruct (add_units (repeat USum m) g) as [g1 units] eqn:EA. destruct (add_units_grown _ _ _ _ T EA) as ((T1 & S1 & P1 & B1 & N1 & C1) & Q1 & U1 & Z1). rewrite repeat_length in U1, Z1.
  assert (C1' : count g1 = count g) by (rewrite C1; enough (X : filter (fun k : ukind dist => match k with ULeaf _ => true | _ => false end) (repeat USum m) = []) by (rewrite X; cbn; lia); clear; induction m; cbn; auto).
  destruct (all_to_nx _ g1) as [[g2 children]|] eqn:E2; [|discriminate]. destruct (all_to_nx_grown _ _ HC _ _ _ T1 E2) as ((T2 & S2 & P2 & B2 & N2 & C2) & L2).
  destruct (sum_edges units P children g2) as [g3|] eqn:E3; [|discriminate]. pose proof (sum_edges_some _ _ _ _ _ E3) as Hb. rewrite (sum_edges_flat _ _ _ _ Hb) in E3. injection E3 as <-.
  destruct (normalize_units _ _) as [g4|] eqn:E4; [|discriminate]. injection E as <- <-. destruct (normalize_pairs _ _ _ E4) as [M1 M2].
  assert (Lu : length units = m) by (rewrite U1; apply seq_length).
  assert (G : grown g (add_all (flat_sum units (combine P children)) g2) units (total ks + total (map (fun a => length (nodup pair_dec (map fst (fst a)))) (combine P children)))).
  { apply (edges_grown g g2 units m); auto; try lia.
    - intros p Hp Hl. rewrite <- Q1. apply P2; [exact Hp|lia].
    - rewrite U1. apply flat_sum_count; [now apply concat_snd_combine|]. intros a c e H1 H2. destruct (Hb a c e H1 H2). split; [lia|assumption].
    - intros a Ha. unfold flat_sum in Ha. apply in_concat in Ha. destruct Ha as (l & Hl & Ha). apply in_map_iff in Hl. destruct Hl as ([b c] & <- & Hbc). cbn [fst snd] in Ha. apply in_map_iff in Ha. destruct Ha as (e & <- & He). cbn [fst snd]. destruct (Hb b c e Hbc He) as [X _]. assert (Y : In (nth (fst (fst e)) units 0) units) by (now apply nth_In). rewrite U1 in Y at 2. apply in_seq in Y. exact Y. }
  assert (Ec : map (fun a : list (nat * nat * option num) * list id => length (nodup pair_dec (map fst (fst a)))) (combine P children) = map (fun a => length (nodup pair_dec (map fst (fst a)))) (combine P cs)).
  { rewrite map_length in L2. clear -L2. revert children cs L2. induction P as [|p P IH]; intros [|x xs] [|c cs] H; cbn in *; try discriminate; auto. f_equal. apply IH. congruence. }
  rewrite <- Ec. clear -G M1 M2. unfold grown, tame, count, leaf_units, nsize in *. unfold pairs in *. rewrite M1, M2. assert (Le : length (g_edges g4) = length (g_edges (add_all (flat_sum units (combine P children)) g2))) by (apply (f_equal (@length _)) in M2; now rewrite !map_length in M2). rewrite Le. exact G.
Qed.

Lemma product_grown n bar edges cs ks m g g' ids : Forall2 grows (map (to_nx n bar) cs) ks -> tame g ->
  (let '(g1, units) := add_units (repeat UProd m) g in
    match all_to_nx (map (to_nx n bar) cs) g1 with
    | None => None
    | Some (g2, children) => match product_edges units edges children g2 with None => None | Some g3 => Some (g3, units) end
    end) = Some (g', ids) ->
  grown g g' ids (total ks + length (nodup triple_dec (s_entries edges))).
Proof.
  intros HC T E. destruct (add_units (repeat UProd m) g) as [g1 units] eqn:EA. destruct (add_units_grown _ _ _ _ T EA) as ((T1 & S1 & P1 & B1 & N1 & C1) & Q1 & U1 & Z1). rewrite repeat_length in U1, Z1.
  assert (C1' : count g1 = count g) by (rewrite C1; enough (X : filter (fun k : ukind dist => match k with ULeaf _ => true | _ => false end) (repeat UProd m) = []) by (rewrite X; cbn; lia); clear; induction m; cbn; auto).
  destruct (all_to_nx _ g1) as [[g2 children]|] eqn:E2; [|discriminate]. destruct (all_to_nx_grown _ _ HC _ _ _ T1 E2) as ((T2 & S2 & P2 & B2 & N2 & C2) & L2).
  destruct (product_edges units edges children g2) as [g3|] eqn:E3; [|discriminate]. pose proof (product_edges_some _ _ _ _ _ E3) as Hb. rewrite (product_edges_flat _ _ _ _ Hb) in E3. injection E3 as <-. injection E as <- <-.
  assert (Lu : length units = m) by (rewrite U1; apply seq_length).
  apply (edges_grown g g2 units m); auto; try lia.
  - intros p Hp Hl. rewrite <- Q1. apply P2; [exact Hp|lia].
  - unfold flat_prod. rewrite map_map. cbn [fst]. apply nodup_map_length. intros x y Hx Hy E. destruct (Hb x Hx) as (X1 & X2 & X3). destruct (Hb y Hy) as (Y1 & Y2 & Y3). injection E as E1 E2'.
    rewrite U1 in E1. rewrite !seq_nth_base in E1 by lia. destruct (concat_NoDup_nth children N2 _ _ _ _ X3 Y3 E2') as [F1 F2]. destruct x as [[x1 x2] x3], y as [[y1 y2] y3]. cbn in *. repeat f_equal; lia.
  - intros a Ha. unfold flat_prod in Ha. apply in_map_iff in Ha. destruct Ha as (e & <- & He). cbn [fst snd]. destruct (Hb e He) as (_ & X & _). assert (Y : In (nth (snd (fst e)) units 0) units) by (now apply nth_In). rewrite U1 in Y at 2. apply in_seq in Y. exact Y.
Qed.

(** ** The number of leaves and edges that are written *)
Fixpoint written (L : layer) : nat :=
  match L with
  | LInput v i => length (leaves v i)
  | LSparse ws cs => total (map written cs) + total (map (fun wc => length (nodup pair_dec (map fst (s_entries (fst wc))))) (combine ws cs))
  | LDense ws cs => total (map written cs) + total (map (fun wc => d_rows (fst wc) * d_cols (fst wc)) (combine ws cs))
  | LProd edges cs => total (map written cs) + length (nodup triple_dec (s_entries edges))
  end.

Lemma dense_additions_distinct w : length (nodup pair_dec (map fst (dense_additions w))) = d_rows w * d_cols w.
Proof.
  assert (N : NoDup (map fst (dense_additions w))).
  { unfold dense_additions. generalize (seq_NoDup (d_rows w) 0). generalize (seq 0 (d_rows w)) as rs. induction rs as [|r rs IH]; intros N; [constructor|]. inversion N as [|? ? N1 N2]; subst. cbn [map concat]. rewrite map_app. apply NoDup_app_intro; [|now apply IH|].
    - rewrite map_map. cbn [fst]. generalize (seq_NoDup (d_cols w) 0). generalize (seq 0 (d_cols w)) as l. induction l as [|c l IHc]; intros Nc; [constructor|]. inversion Nc as [|? ? Nc1 Nc2]; subst. cbn [map]. constructor; [|now apply IHc]. intros X. apply in_map_iff in X. destruct X as (c' & E & Hc'). injection E as ->. contradiction.
    - intros [a b] H1 H2. rewrite map_map in H1. apply in_map_iff in H1. destruct H1 as (c & E & _). cbn [fst] in E. injection E as <- <-. apply in_map_iff in H2. destruct H2 as (x & Ex & Hx). apply in_concat in Hx. destruct Hx as (l & Hl & Hx). apply in_map_iff in Hl. destruct Hl as (r' & <- & Hr'). apply in_map_iff in Hx. destruct Hx as (c' & <- & _). cbn [fst] in Ex. injection Ex as -> _. contradiction. }
  rewrite nodup_fixed_point, map_length by exact N. unfold dense_additions. clear N.
  rewrite <- (seq_length (d_rows w) 0) at 2. generalize (seq 0 (d_rows w)) as rs. induction rs as [|r rs IH]; [reflexivity|]. cbn [map concat length Nat.mul]. rewrite app_length, IH, map_length, seq_length. reflexivity.
Qed.

Lemma to_nx_grows n bar L : grows (to_nx n bar L) (written L).
Proof.
  induction L as [v i|ws cs IH|ws cs IH|edges cs IH] using layer_ind'; intros g g' ids T E; cbn [to_nx] in E; destruct (forallb _ _); try discriminate.
  - assert (E' : add_units (map ULeaf (leaves v i)) g = (g', ids)) by (destruct i, bar; try discriminate; injection E; intros; congruence). destruct (add_units_grown _ _ _ _ T E') as (G & _). cbn [written].
    replace (length (leaves v i)) with (length (filter (fun k : ukind dist => match k with ULeaf _ => true | _ => false end) (map ULeaf (leaves v i)))); [exact G|]. clear. induction (leaves v i) as [|d l IH]; cbn in *; auto.
  - assert (H := sum_grown n bar _ cs (map written cs) _ g g' ids ltac:(clear -IH; induction IH; cbn; constructor; auto) T E). cbn [written].
    replace (map (fun wc : sparse num * layer => length (nodup pair_dec (map fst (s_entries (fst wc))))) (combine ws cs)) with (map (fun a : list (nat * nat * option num) * layer => length (nodup pair_dec (map fst (fst a)))) (combine (map sparse_additions ws) cs)); [exact H|].
    clear. revert cs. induction ws as [|w ws IH]; intros [|c cs]; cbn [map combine]; auto. f_equal; [|apply IH]. cbn [fst]. unfold sparse_additions. now rewrite map_map.
  - assert (H := sum_grown n bar _ cs (map written cs) _ g g' ids ltac:(clear -IH; induction IH; cbn; constructor; auto) T E). cbn [written].
    replace (map (fun wc : dense * layer => d_rows (fst wc) * d_cols (fst wc)) (combine ws cs)) with (map (fun a : list (nat * nat * option num) * layer => length (nodup pair_dec (map fst (fst a)))) (combine (map dense_additions ws) cs)); [exact H|].
    clear. revert cs. induction ws as [|w ws IH]; intros [|c cs]; cbn [map combine]; auto. f_equal; [|apply IH]. cbn [fst]. apply dense_additions_distinct.
  - exact (product_grown n bar edges cs (map written cs) _ g g' ids ltac:(clear -IH; induction IH; cbn; constructor; auto) T E).
Qed.
