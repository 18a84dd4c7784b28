(** * Fitting and serialising multinomial distributions (C79, C80) *)
From Coq Require Import List Arith Bool Lia Sorted ZArith Reals Lra String.
From Verif Require Import Num Graph EvalFacts Rename Interval Dist Multinomial MultinomialFacts PropertiesMultinomial DistFacts PropertiesDist BayesFacts JaxLayer JaxMeaning Copy MaxLikelihood MultinomialFit.
Import ListNotations.
Local Set Bullet Behavior "Strict Subproofs".
Local Open Scope R_scope.

(** ** Specification *)
Definition row_dec : forall a b : list nat, {a = b} + {a <> b} := list_eq_dec Nat.eq_dec.
Definition share (rows : list (list nat)) (s : list nat) : R := INR (count_occ row_dec rows s) / INR (List.length rows).

(** Data as [fit] gets them: every row is a valid index tuple, written as numbers. *)
Definition encoded (rows : list (list nat)) : list (list R) := map (map INR) rows.

(** The likelihood of independent rows. *)
Definition data_likelihood (f : list nat -> R) (rows : list (list nat)) : R := Rprod (map f rows).

Definition distribution (dom : nat -> list Z) (vars : list nat) (q : list nat -> R) : Prop :=
  (forall s, valid dom vars s -> 0 <= q s) /\ sum_over (valid dom vars) q 1.

Definition C79_full : Prop := forall dom m rows, rows <> [] -> Forall (valid dom (m_vars m)) rows ->
  exists m', m_fit dom (encoded rows) m = Some m' /\ m_vars m' = m_vars m /\
    (forall s, valid dom (m_vars m) s -> m_at m' s = Fin (share rows s)) /\
    distribution dom (m_vars m) (share rows) /\
    (forall q, distribution dom (m_vars m) q -> data_likelihood q rows <= data_likelihood (share rows) rows /\
       (data_likelihood q rows = data_likelihood (share rows) rows -> forall s, valid dom (m_vars m) s -> q s = share rows s)).

(** ** Distinct rows *)
Lemma lex_refl a : lex a a = Eq.
Proof. induction a as [|x a IH]; cbn; [reflexivity|]. destruct (total_order_T x x) as [[H|_]|H]; [lra|exact IH|lra]. Qed.
Lemma lex_eq a : forall b, lex a b = Eq -> a = b.
Proof.
  induction a as [|x a IH]; intros [|y b] E; cbn in E; try discriminate; [reflexivity|]. destruct (total_order_T x y) as [[H|H]|H]; try discriminate. subst. f_equal. auto.
Qed.
Lemma lex_gt a : forall b, lex a b = Gt -> lex b a = Lt.
Proof.
  induction a as [|x a IH]; intros [|y b] E; cbn in *; try discriminate; [reflexivity|]. destruct (total_order_T x y) as [[H|H]|H]; try discriminate.
  - subst. destruct (total_order_T y y) as [[H|_]|H]; [lra|auto|lra].
  - destruct (total_order_T y x) as [[H'|H']|H']; [reflexivity|lra|lra].
Qed.
Lemma lex_trans a : forall b c, lex a b = Lt -> lex b c = Lt -> lex a c = Lt.
Proof.
  induction a as [|x a IH]; intros [|y b] [|z c] E1 E2; cbn in *; try discriminate; auto.
  destruct (total_order_T x y) as [[H|H]|H]; try discriminate; destruct (total_order_T y z) as [[H'|H']|H']; try discriminate; destruct (total_order_T x z) as [[H''|H'']|H'']; auto; try lra. eauto.
Qed.

Definition below (a b : list R * nat) : Prop := lex (fst a) (fst b) = Lt.

Lemma count_row_In r l : StronglySorted below l -> forall x c, In (x, c) (count_row r l) <->
  (x = r /\ ((exists n, In (r, n) l /\ c = S n) \/ ((forall n, ~ In (r, n) l) /\ c = 1%nat))) \/ (x <> r /\ In (x, c) l).
Proof.
  induction l as [|[r' n] l IH]; intros HS x c.
  - cbn. split.
    + intros [E|[]]. inversion E; subst. left. split; [reflexivity|]. right. auto.
    + intros [[-> [(k & [] & _)|[_ ->]]]|[_ []]]. now left.
  - apply StronglySorted_inv in HS as [HS HF]. rewrite Forall_forall in HF. unfold below in HF. cbn [fst] in HF. cbn [count_row]. destruct (lex r r') eqn:E.
    + apply lex_eq in E. subst r'. cbn [In]. split.
      * intros [H|H]; [inversion H; subst; left; split; auto; left; exists n; auto|].
        right. split; [|now right]. intros ->. specialize (HF _ H). cbn in HF. rewrite lex_refl in HF. discriminate.
      * intros [[-> [(k & [H|H] & ->)|[H _]]]|[N [H|H]]].
        -- inversion H; subst. now left.
        -- specialize (HF _ H). cbn in HF. rewrite lex_refl in HF. discriminate.
        -- exfalso. apply (H n). now left.
        -- inversion H; subst. congruence.
        -- now right.
    + assert (NI : forall k, ~ In (r, k) ((r', n) :: l)).
      { intros k [H|H]; [inversion H; subst; rewrite lex_refl in E; discriminate|]. specialize (HF _ H). cbn in HF. pose proof (lex_trans _ _ _ E HF) as T. rewrite lex_refl in T. discriminate. }
      split.
      * intros [H|H]; [inversion H; subst; left; split; auto|]. right. split; [|exact H]. intros ->. now apply NI in H.
      * intros [[-> [(k & H & _)|[_ ->]]]|[N H]]; [now apply NI in H|now left|now right].
    + assert (NR : r <> r') by (intros ->; rewrite lex_refl in E; discriminate). cbn [In]. rewrite (IH HS). split.
      * intros [H|[[-> [(k & H & ->)|[H ->]]]|[N H]]].
        -- inversion H; subst. right. split; [congruence|now left].
        -- left. split; [reflexivity|]. left. exists k. auto.
        -- left. split; [reflexivity|]. right. split; [|reflexivity]. intros k [H'|H']; [inversion H'; congruence|]. now apply H in H'.
        -- auto.
      * intros [[-> [(k & [H|H] & ->)|[H ->]]]|[N [H|H]]].
        -- inversion H; congruence.
        -- right. left. split; [reflexivity|]. left. eauto.
        -- right. left. split; [reflexivity|]. right. split; [|reflexivity]. intros k H'. apply (H k). now right.
        -- now left.
        -- right. right. auto.
Qed.

Lemma count_row_sorted r l : StronglySorted below l -> StronglySorted below (count_row r l).
Proof.
  induction l as [|[r' n] l IH]; intros HS; cbn [count_row]; [repeat constructor|]. pose proof HS as HS0. apply StronglySorted_inv in HS as [HS HF]. destruct (lex r r') eqn:E.
  - constructor; auto.
  - constructor; [exact HS0|]. constructor; [exact E|]. eapply Forall_impl; [|exact HF]. intros [y k] H. unfold below in *. cbn in *. now apply (lex_trans r r' y).
  - constructor; [now apply IH|]. apply Forall_forall. intros [y k] Hy. apply (count_row_In r l HS) in Hy. unfold below. cbn. destruct Hy as [[-> _]|[_ Hy]]; [now apply lex_gt|]. rewrite Forall_forall in HF. exact (HF _ Hy).
Qed.

Definition real_dec : forall a b : list R, {a = b} + {a <> b} := list_eq_dec Req_EM_T.
Lemma unique_counts_spec rows : StronglySorted below (unique_counts rows) /\
  forall x c, In (x, c) (unique_counts rows) <-> c = count_occ real_dec rows x /\ (0 < c)%nat.
Proof.
  unfold unique_counts. rewrite <- (rev_involutive rows). induction (rev rows) as [|r l IH]; cbn [rev].
  - cbn. split; [constructor|]. intros x c. split; [intros []|lia].
  - rewrite fold_left_app. cbn [fold_left]. destruct IH as [IH1 IH2]. split; [now apply count_row_sorted|]. intros x c. rewrite (count_row_In r _ IH1).
    rewrite count_occ_app. cbn [count_occ]. destruct (real_dec r x) as [->|N].
    + split.
      * intros [[_ [(k & H & ->)|[H ->]]]|[N _]]; [apply IH2 in H; lia| |congruence].
        destruct (count_occ real_dec (rev l) x) eqn:E; [lia|]. exfalso. apply (H (S n)). apply IH2. lia.
      * intros [-> _]. left. split; [reflexivity|]. destruct (count_occ real_dec (rev l) x) eqn:E.
        -- right. split; [|reflexivity]. intros k H. apply IH2 in H. lia.
        -- left. exists (S n). split; [apply IH2; lia|lia].
    + rewrite Nat.add_0_r. rewrite <- IH2. split; [intros [[-> _]|[_ H]]; [congruence|exact H]|]. intros H. right. split; [congruence|exact H].
Qed.

Lemma map_INR_inj a : forall b, map INR a = map INR b -> a = b.
Proof. induction a as [|x a IH]; intros [|y b] E; try discriminate; [reflexivity|]. cbn in E. injection E as E1 E2. apply INR_eq in E1. f_equal; auto. Qed.
Lemma count_encoded rows s : count_occ real_dec (encoded rows) (map INR s) = count_occ row_dec rows s.
Proof.
  unfold encoded. induction rows as [|r rows IH]; [reflexivity|]. cbn [map count_occ]. destruct (real_dec (map INR r) (map INR s)) as [E|E]; destruct (row_dec r s) as [E'|E']; rewrite IH; auto.
  - now apply map_INR_inj in E.
  - now subst.
Qed.

(** ** Indices *)
Lemma axis_index_in n i : (i < n)%nat -> axis_index n (Z.of_nat i) = Some i.
Proof.
  intros H. unfold axis_index. destruct (Z.leb_spec 0 (Z.of_nat i)); [|lia]. destruct (Z.ltb_spec (Z.of_nat i) (Z.of_nat n)); [|lia]. cbn. now rewrite Nat2Z.id.
Qed.
Lemma axis_index_out n i : (n <= i)%nat -> axis_index n (Z.of_nat i) = None.
Proof.
  intros H. unfold axis_index. destruct (Z.ltb_spec (Z.of_nat i) (Z.of_nat n)); [lia|]. rewrite andb_false_r. destruct (Z.ltb_spec (Z.of_nat i) 0); [lia|]. now rewrite andb_false_r.
Qed.
Lemma row_index_in sh s : Forall2 (fun n i => (i < n)%nat) sh s -> row_index sh (map INR s) = Some s.
Proof.
  intros H. unfold row_index. rewrite map_length. assert (E : List.length s = List.length sh) by (clear -H; induction H; cbn; auto). rewrite E, Nat.eqb_refl. clear E.
  induction H as [|n i sh s H1 H2 IH]; [reflexivity|]. cbn [map combine mapM]. cbn [fst snd]. rewrite astype_int_INR, axis_index_in by exact H1. cbn [mapM] in IH. unfold mapM in IH |- *. now rewrite IH.
Qed.
Lemma row_index_out sh s : ~ Forall2 (fun n i => (i < n)%nat) sh s -> row_index sh (map INR s) = None.
Proof.
  intros H. unfold row_index. rewrite map_length. destruct (Nat.eqb_spec (List.length s) (List.length sh)) as [E|E]; [|reflexivity].
  revert s E H. induction sh as [|n sh IH]; intros [|i s] E H; try discriminate; [exfalso; apply H; constructor|]. cbn [map combine mapM fst snd]. rewrite astype_int_INR.
  destruct (Nat.lt_ge_cases i n) as [L|L]; [|now rewrite axis_index_out]. rewrite axis_index_in by exact L. specialize (IH s ltac:(cbn in E; lia) ltac:(intros F; apply H; now constructor)).
  unfold mapM in IH |- *. now rewrite IH.
Qed.

Lemma fold_put_off cells : forall a s, ~ In s (map fst cells) -> fold_left (fun a sc => put a (fst sc) (Fin (INR (snd sc)))) cells a s = a s.
Proof.
  induction cells as [|[s' c] cells IH]; intros a s H; [reflexivity|]. cbn [fold_left fst snd]. rewrite IH by (intros F; apply H; now right). unfold put. destruct (leqb s s') eqn:E; [|reflexivity]. apply leqb_eq in E. subst. exfalso. apply H. now left.
Qed.
Lemma fold_put_on cells : NoDup (map fst cells) -> forall a s c, In (s, c) cells -> fold_left (fun a sc => put a (fst sc) (Fin (INR (snd sc)))) cells a s = Fin (INR c).
Proof.
  induction cells as [|[s' c'] cells IH]; intros HN a s c H; [destruct H|]. inversion HN as [|? ? N1 N2]; subst. cbn [fold_left fst snd]. destruct H as [E|H].
  - inversion E; subst. rewrite fold_put_off by exact N1. unfold put. now rewrite (proj2 (leqb_eq s s) eq_refl).
  - now apply IH.
Qed.

(** ** The counts *)
Lemma sorted_keys_NoDup l : StronglySorted below l -> NoDup (map fst l).
Proof.
  induction 1 as [|a l HS IH HF]; cbn; constructor; auto. intros H. apply in_map_iff in H as (b & E & Hb). rewrite Forall_forall in HF. specialize (HF _ Hb). unfold below in HF. rewrite <- E, lex_refl in HF. discriminate.
Qed.

Lemma count_pos rows s : (0 < count_occ row_dec rows s)%nat <-> In s rows.
Proof. rewrite (count_occ_In row_dec). lia. Qed.

Lemma fit_cells sh rows : Forall (Forall2 (fun n i => (i < n)%nat) sh) rows ->
  exists cells, mapM (fun rc => match row_index sh (fst rc) with Some s => Some (s, snd rc) | None => None end) (unique_counts (encoded rows)) = Some cells /\
    NoDup (map fst cells) /\ forall s c, In (s, c) cells <-> c = count_occ row_dec rows s /\ (0 < c)%nat.
Proof.
  intros HV. destruct (unique_counts_spec (encoded rows)) as [HS HC]. rewrite Forall_forall in HV.
  assert (K : forall x c, In (x, c) (unique_counts (encoded rows)) -> exists s, x = map INR s /\ In s rows).
  { intros x c H. apply HC in H as [-> H]. apply Nat.lt_nge in H. destruct (in_dec real_dec x (encoded rows)) as [Hi|Hi]; [|apply (count_occ_not_In real_dec) in Hi; lia].
    unfold encoded in Hi. apply in_map_iff in Hi as (s & <- & Hs). eauto. }
  pose proof (sorted_keys_NoDup _ HS) as HN. clear HS.
  assert (G : forall l : list (list R * nat), (forall x c, In (x, c) l -> exists s, x = map INR s /\ In s rows) -> exists cells, mapM (fun rc => match row_index sh (fst rc) with Some s => Some (s, snd rc) | None => None end) l = Some cells /\
    l = map (fun sc => (map INR (fst sc), snd sc)) cells).
  { induction l as [|[x c] l IH]; intros HK; [exists []; auto|]. destruct (IH ltac:(intros; eapply HK; right; eauto)) as (cells & E & ->). destruct (HK x c (or_introl eq_refl)) as (s & -> & Hs).
    exists ((s, c) :: cells). cbn [mapM fst snd]. rewrite row_index_in by (now apply HV). unfold mapM in E |- *. rewrite E. auto. }
  destruct (G _ K) as (cells & E & EL). exists cells. split; [exact E|]. rewrite EL in HN, HC. rewrite map_map in HN. cbn [fst] in HN. split.
  - rewrite <- (map_map fst (map INR)) in HN. now apply NoDup_map_inv in HN.
  - intros s c. rewrite <- (count_encoded rows s), <- HC. rewrite in_map_iff. split.
    + intros H. exists (s, c). auto.
    + intros ([s' c'] & E' & H). cbn in E'. injection E' as E1 E2. apply map_INR_inj in E1. now subst.
Qed.

Lemma share_is_frequency rows s : share rows s = frequency row_dec rows s.
Proof. reflexivity. Qed.

Lemma fit_frequencies dom m rows : rows <> [] -> Forall (valid dom (m_vars m)) rows ->
  exists m', m_fit dom (encoded rows) m = Some m' /\ m_vars m' = m_vars m /\ (forall s, valid dom (m_vars m) s -> m_at m' s = Fin (share rows s)).
Proof.
  intros HN HV. destruct (fit_cells (shape dom (m_vars m)) rows) as (cells & E & ND & HC).
  { eapply Forall_impl; [|exact HV]. intros s Hs. now apply states_In, valid_states. }
  unfold m_fit. rewrite E. eexists. split; [reflexivity|]. split; [reflexivity|]. intros s Hs.
  set (mm := mkMulti (m_vars m) (fold_left (fun a sc => put a (fst sc) (Fin (INR (snd sc)))) cells (fun _ => Fin 0))).
  assert (A : forall s, m_at mm s = Fin (INR (count_occ row_dec rows s))).
  { intros s0. cbn [mm m_at]. destruct (count_occ row_dec rows s0) eqn:C.
    - rewrite fold_put_off; [reflexivity|]. intros H. apply in_map_iff in H as ([s1 c] & E1 & H). cbn in E1. subst s1. apply HC in H. lia.
    - apply fold_put_on; [exact ND|]. apply HC. lia. }
  assert (T : m_total dom mm = Fin (INR (List.length rows))).
  { rewrite (total_R dom mm (fun s => INR (count_occ row_dec rows s))) by auto. f_equal. cbn [m_vars mm].
    pose proof (sum_rows row_dec (states (shape dom (m_vars m))) rows (states_NoDup _)) as SR. specialize (SR ltac:(intros x Hx; apply valid_states; rewrite Forall_forall in HV; auto) (fun _ => 1)). rewrite Rsum_const in SR.
    rewrite (Rsum_ext _ (fun a => INR (count_occ row_dec rows a) * 1)) by (intros; ring). lra. }
  cbn [m_normalize m_at]. fold mm. rewrite T, A. cbn [ndiv]. pose proof (rows_pos rows HN). destruct (Req_EM_T (INR (List.length rows)) 0); [lra|reflexivity].
Qed.

(** ** C79 *)

(** [fit] makes the probability of every state its relative frequency; these sum to one, and no other distribution gives the data as high
    a likelihood. *)
Theorem C79_fit : C79_full.
Proof.
  intros dom m rows HN HV. destruct (fit_frequencies dom m rows HN HV) as (m' & E & Ev & Ha). exists m'. split; [exact E|]. split; [exact Ev|]. split; [exact Ha|].
  assert (HI : incl rows (states (shape dom (m_vars m)))) by (intros x Hx; apply valid_states; rewrite Forall_forall in HV; auto).
  assert (HU := states_NoDup (shape dom (m_vars m))). split.
  - split.
    + intros s _. apply frequency_nonneg. exact HN.
    + exists (states (shape dom (m_vars m))). split; [exact HU|]. split; [intros s; apply valid_states|]. symmetry. now apply (frequency_sum row_dec).
  - intros q [Q1 Q2].
    assert (Q3 : Rsum (map q (states (shape dom (m_vars m)))) <= 1) by (right; eapply sum_over_det; [apply sum_over_states|exact Q2]).
    assert (Q4 : forall a, In a (states (shape dom (m_vars m))) -> 0 <= q a) by (intros a Ha'; apply Q1; now apply valid_states).
    split.
    + exact (frequencies_best row_dec _ rows HU HI HN q Q4 Q3).
    + intros Eq s Hs. apply (frequencies_unique row_dec _ rows HU HI HN q Q4 Q3 Eq). now apply valid_states.
Qed.

(** What the distribution was before does not matter, and fitting again yields the same. *)
Theorem C79_forgets dom m m0 rows : m_vars m = m_vars m0 -> m_fit dom rows m = m_fit dom rows m0.
Proof. intros E. unfold m_fit. now rewrite E. Qed.

Lemma Forall2_left {A B} (P : A -> B -> Prop) l m : Forall2 P l m -> forall a, In a l -> exists b, P a b.
Proof. induction 1 as [|a b l m H1 H2 IH]; [now intros c []|]. intros c [<-|Hc]; eauto. Qed.

(** A row that is not an index tuple of the shape raises. *)
Theorem C79_outside dom m rows r : In r rows -> ~ valid dom (m_vars m) r -> m_fit dom (encoded rows) m = None.
Proof.
  intros Hr HV. unfold m_fit. destruct (mapM _ _) as [cells|] eqn:E; [|reflexivity]. exfalso. apply mapM_Forall2 in E.
  assert (Hi : In (map INR r, count_occ row_dec rows r) (unique_counts (encoded rows))).
  { apply unique_counts_spec. rewrite count_encoded. split; [reflexivity|]. now apply count_pos. }
  destruct (Forall2_left _ _ _ E _ Hi) as (sc & H). cbn [fst snd] in H. rewrite row_index_out in H; [discriminate|]. intros F. apply HV. now apply valid_states, states_In.
Qed.

(** Negative entries count from the end, as in numpy: a row that names the states that way is not refused, and gets all the mass. *)
Inductive spells : list nat -> list Z -> list nat -> Prop :=
| spells_nil : spells [] [] []
| spells_cons n sh z zs i s : (i < n)%nat -> (z = Z.of_nat i \/ z = Z.of_nat i - Z.of_nat n)%Z -> spells sh zs s -> spells (n :: sh) (z :: zs) (i :: s).

Lemma Int_part_IZR z : Int_part (IZR z) = z.
Proof. unfold Int_part. rewrite <- (tech_up (IZR z) (z + 1)); [lia| |]; rewrite plus_IZR; lra. Qed.
Lemma astype_int_IZR z : astype_int (IZR z) = z.
Proof. unfold astype_int. destruct (Rltb _ _); [rewrite <- opp_IZR, Int_part_IZR; lia|apply Int_part_IZR]. Qed.
Lemma row_index_spells sh zs s : spells sh zs s -> row_index sh (map IZR zs) = Some s.
Proof.
  intros F. unfold row_index. assert (E : List.length (map IZR zs) = List.length sh) by (rewrite map_length; induction F; cbn; congruence).
  rewrite E, Nat.eqb_refl. clear E. induction F as [|n sh z zs i s H1 H2 F IH]; [reflexivity|]. cbn [map combine mapM fst snd]. rewrite astype_int_IZR. assert (A : axis_index n z = Some i).
  { destruct H2 as [-> | ->]; [now apply axis_index_in|]. unfold axis_index. destruct (Z.leb_spec 0 (Z.of_nat i - Z.of_nat n)); [lia|]. cbn [andb].
    destruct (Z.leb_spec (- Z.of_nat n) (Z.of_nat i - Z.of_nat n)); [|lia]. destruct (Z.ltb_spec (Z.of_nat i - Z.of_nat n) 0); [|lia]. cbn [andb]. f_equal. lia. }
  rewrite A. unfold mapM in IH |- *. now rewrite IH.
Qed.
Lemma spells_in sh zs s : spells sh zs s -> Forall2 (fun n i => (i < n)%nat) sh s.
Proof. induction 1; constructor; auto. Qed.

Theorem C79_negative dom m zs s : spells (shape dom (m_vars m)) zs s ->
  exists m', m_fit dom [map IZR zs] m = Some m' /\ m_at m' s = Fin 1 /\ forall s', valid dom (m_vars m) s' -> s' <> s -> m_at m' s' = Fin 0.
Proof.
  intros F. pose proof (row_index_spells _ _ _ F) as E. pose proof (spells_in _ _ _ F) as F2. assert (HV : valid dom (m_vars m) s) by now apply valid_states, states_In.
  assert (E2 : m_fit dom [map IZR zs] m = m_fit dom (encoded [s]) m).
  { unfold m_fit, encoded, unique_counts. cbn [map fold_left count_row mapM fst snd]. rewrite E. rewrite row_index_in by exact F2. reflexivity. }
  rewrite E2. destruct (fit_frequencies dom m [s]) as (m' & E3 & _ & H); [discriminate|constructor; auto|]. exists m'. split; [exact E3|]. split.
  - rewrite H by exact HV. unfold share. cbn [count_occ List.length]. destruct (row_dec s s) as [_|N]; [|congruence]. cbn [INR]. f_equal. field.
  - intros s' Hs' N. rewrite H by exact Hs'. unfold share. cbn [count_occ List.length]. destruct (row_dec s s') as [X|_]; [congruence|]. cbn [INR]. f_equal. field.
Qed.

(** Without data nothing is a number. *)
Theorem C79_no_data dom m : exists m', m_fit dom [] m = Some m' /\ forall s, m_at m' s = NaN.
Proof.
  eexists. split; [reflexivity|]. intros s. cbn [m_at m_normalize]. rewrite (total_R dom _ (fun _ => 0)) by reflexivity. rewrite Rsum_zero by reflexivity. cbn [m_at fold_left ndiv]. destruct (Req_EM_T 0 0) as [_|N]; [|lra].
  unfold nscale_inf. destruct (total_order_T 0 0) as [[?|_]|?]; try lra; reflexivity.
Qed.

(** ** C31: fitting a discrete distribution maximises the likelihood, too *)
Lemma count_map_in (h : Z -> Z) (data : list Z) x : (forall y, In y data -> h x = h y -> x = y) -> count_occ Z.eq_dec (map h data) (h x) = count_occ Z.eq_dec data x.
Proof.
  induction data as [|y data IH]; intros H; [reflexivity|]. cbn [map count_occ]. rewrite IH by (intros; apply H; [now right|assumption]).
  destruct (Z.eq_dec (h y) (h x)) as [E|E]; destruct (Z.eq_dec y x) as [E'|E']; auto; [|congruence]. exfalso. apply E'. symmetry. apply H; [now left|congruence].
Qed.

Theorem C31_fit_best h data q : data <> [] -> (forall x y, In x data -> In y data -> h x = h y -> x = y) -> dict_ok q -> Rsum (vals q) = 1 ->
  Rprod (map (fun x => dget q (h x)) data) <= Rprod (map (fun x => dget (dfit h data) (h x)) data) /\
  (Rprod (map (fun x => dget q (h x)) data) = Rprod (map (fun x => dget (dfit h data) (h x)) data) -> forall k, dget q k = dget (dfit h data) k).
Proof.
  intros HN HH Hq Hs. destruct (C31_fit_symbolic h data HN HH) as (F1 & F2 & F3 & F4).
  set (U := nodup Z.eq_dec (map h data ++ keys q)). set (rows := map h data).
  assert (HU : NoDup U) by apply NoDup_nodup.
  assert (HI : incl rows U) by (intros k Hk; apply nodup_In, in_or_app; now left).
  assert (HR : rows <> []) by (unfold rows; destruct data; [congruence|discriminate]).
  assert (Q1 : forall a, In a U -> 0 <= dget q a) by (intros; now apply dget_nonneg).
  assert (Q2 : Rsum (map (dget q) U) <= 1).
  { right. rewrite <- Hs. symmetry. apply vals_sum; [apply Hq|exact HU|]. intros k Hk. apply nodup_In, in_or_app. now right. }
  assert (FR : forall k, In k rows -> dget (dfit h data) k = frequency Z.eq_dec rows k).
  { intros k Hk. unfold rows in Hk. apply in_map_iff in Hk as (x & <- & Hx). unfold frequency, rows. rewrite map_length, count_map_in by (intros y Hy E; now apply HH). apply dget_In; auto. }
  assert (OFF : forall k, ~ In k rows -> dget (dfit h data) k = 0).
  { intros k Hk. apply dget_absent. intros H. destruct (F4 k H) as (x & Hx & ->). apply Hk. unfold rows. now apply in_map. }
  rewrite <- (map_map h (dget q)), <- (map_map h (dget (dfit h data))). fold rows. rewrite (map_ext_in _ _ _ FR).
  split; [exact (frequencies_best Z.eq_dec U rows HU HI HR (dget q) Q1 Q2)|].
  intros E k. pose proof (frequencies_unique Z.eq_dec U rows HU HI HR (dget q) Q1 Q2 E) as G. destruct (in_dec Z.eq_dec k rows) as [Hk|Hk].
  - rewrite FR by exact Hk. apply G. now apply HI.
  - rewrite OFF by exact Hk. destruct (in_dec Z.eq_dec k U) as [Hu|Hu].
    + rewrite G by exact Hu. now apply frequency_off.
    + apply dget_absent. intros H. apply Hu, nodup_In, in_or_app. now right.
Qed.
Example C31_fit_best_case : forall q, dict_ok q -> Rsum (vals q) = 1 -> dget q 3 * (dget q 0 * (dget q 3 * 1)) <= 4 / 27.
Proof.
  intros q H1 H2. destruct (C31_fit_best (fun x => x) [3; 0; 3]%Z q ltac:(discriminate) ltac:(auto) H1 H2) as [H _].
  eapply Rle_trans; [exact H|]. right. unfold dfit. cbn. field.
Qed.

(** ** C80 *)
Definition C80_full : Prop := forall dom m, Forall (fun v => dom v <> []) (m_vars m) ->
  exists m', multi_of_json dom (multi_to_json dom m) = Some m' /\ m_vars m' = m_vars m /\
    (forall s, valid dom (m_vars m) s -> m_at m' s = m_at m s) /\ multi_to_json dom m' = multi_to_json dom m.

Lemma nested_ext sh : forall a b, (forall s, In s (states sh) -> a s = b s) -> nested sh a = nested sh b.
Proof.
  induction sh as [|n sh IH]; intros a b H; cbn [nested]; [rewrite H; [reflexivity|now left]|]. f_equal. apply map_ext_in. intros i Hi. apply IH. intros s Hs. apply H. apply states_In. constructor; [apply in_seq in Hi; lia|now apply states_In].
Qed.

Lemma nested_array sh : Forall (fun n => n <> 0%nat) sh -> forall a, exists b, array_of_json (nested sh a) = Some (sh, b) /\ forall s, In s (states sh) -> b s = a s.
Proof.
  induction sh as [|n sh IH]; intros HF a.
  - exists (fun _ => a []). cbn. split; [reflexivity|]. intros s [<-|[]]. reflexivity.
  - inversion HF as [|? ? H1 H2]; subst. specialize (IH H2). cbn [nested array_of_json].
    assert (G : forall l, exists ps, mapM array_of_json (map (fun i => nested sh (fun s => a (i :: s))) l) = Some ps /\ List.length ps = List.length l /\
      forall k i, nth_error l k = Some i -> exists b, nth_error ps k = Some (sh, b) /\ forall s, In s (states sh) -> b s = a (i :: s)).
    { induction l as [|i l IHl].
      - exists []. split; [reflexivity|]. split; [reflexivity|]. intros [|k] i; discriminate.
      - destruct IHl as (ps & E & L & HP). destruct (IH (fun s => a (i :: s))) as (b & Eb & Hb). exists ((sh, b) :: ps). cbn [map mapM]. rewrite Eb. unfold mapM in E |- *. rewrite E. split; [reflexivity|]. split; [cbn; now rewrite L|].
        intros [|k] j Hj; cbn in Hj |- *; [injection Hj as <-; eauto|auto]. }
    destruct (G (seq 0 n)) as (ps & E & L & HP). unfold mapM in E |- *. rewrite E. rewrite seq_length in L.
    assert (PS : forall p, In p ps -> fst p = sh).
    { intros p Hp. apply In_nth_error in Hp as (k & Hk). assert (k < n)%nat by (rewrite <- L; apply nth_error_Some; congruence).
      destruct (HP k k) as (b & Eb & _); [|rewrite Hk in Eb; injection Eb as ->; reflexivity]. rewrite nth_error_nth' with (d := 0%nat) by now rewrite seq_length. now rewrite seq_nth. }
    destruct ps as [|[sh0 b0] ps]; [cbn in L; congruence|]. pose proof (PS _ (or_introl eq_refl)) as E0. cbn in E0. subst sh0.
    replace (forallb _ ps) with true by (symmetry; apply forallb_forall; intros p Hp; apply leqb_eq; apply PS; now right).
    cbn [List.length] in L. rewrite L. eexists. split; [reflexivity|].
    intros s Hs. apply states_In in Hs. inversion Hs as [|? i ? s' Hi Hs']; subst. cbn beta iota.
    destruct (HP i i) as (b & Eb & Hb); [rewrite nth_error_nth' with (d := 0%nat) by (rewrite seq_length; lia); now rewrite seq_nth by lia|]. rewrite Eb. cbn [snd]. apply Hb. now apply states_In.
Qed.

(** Written and read again, a multinomial distribution over variables with non-empty domains is the same. *)
Theorem C80_roundtrip : C80_full.
Proof.
  intros dom m HF. unfold multi_of_json, multi_to_json. cbn -[nested array_of_json var_to_json var_of_json shape].
  assert (EV : mapM var_of_json (map var_to_json (m_vars m)) = Some (m_vars m)).
  { induction (m_vars m) as [|v l IH]; [reflexivity|]. inversion HF; subst. cbn [map mapM]. unfold var_of_json at 1, var_to_json at 1. rewrite Nat2Z.id. unfold mapM in IH |- *. rewrite IH by assumption. reflexivity. }
  rewrite EV. cbn [obind]. destruct (nested_array (shape dom (m_vars m)) ltac:(unfold shape; apply Forall_map; eapply Forall_impl; [|exact HF]; intros v Hv; cbn in Hv |- *; destruct (dom v); [now destruct Hv|discriminate]) (m_at m)) as (b & Eb & Hb).
  rewrite Eb. cbn [obind fst snd]. rewrite (proj2 (leqb_eq _ _) eq_refl). eexists. split; [reflexivity|]. cbn [m_vars m_at]. split; [reflexivity|]. split.
  - intros s Hs. apply Hb. now apply valid_states.
  - now rewrite (nested_ext _ b (m_at m) Hb).
Qed.

(** ** Concrete cases *)

(** Two binary variables, four rows. *)
Definition fit_dom (v : nat) : list Z := [0; 1]%Z.
Definition fit_rows : list (list nat) := [[0; 1]; [1; 1]; [0; 1]; [0; 0]]%nat.
Definition fit_start : multi := mkMulti [0; 1]%nat (fun _ => Fin (1/4)).
Lemma fit_rows_valid : Forall (valid fit_dom (m_vars fit_start)) fit_rows.
Proof. repeat constructor. Qed.
Example C79_example : exists m', m_fit fit_dom (encoded fit_rows) fit_start = Some m' /\ m_at m' [0; 1]%nat = Fin (1/2) /\ m_at m' [1; 0]%nat = Fin 0.
Proof.
  destruct (C79_fit fit_dom fit_start fit_rows ltac:(discriminate) fit_rows_valid) as (m' & E & _ & H & _). exists m'. split; [exact E|].
  rewrite !H by (repeat constructor). unfold share. cbn [fit_rows count_occ row_dec list_eq_dec]. split; f_equal; cbn; lra.
Qed.
Example C79_example_outside : m_fit fit_dom (encoded [[0; 2]]%nat) fit_start = None.
Proof.
  apply (C79_outside fit_dom fit_start [[0; 2]]%nat [0; 2]%nat); [now left|]. intros H. inversion H as [|? ? ? ? _ H2]; subst. inversion H2 as [|? ? ? ? H3 _]; subst. cbn in H3. lia.
Qed.
Example C79_example_negative : exists m', m_fit fit_dom [[-1; 0]] fit_start = Some m' /\ m_at m' [1; 0]%nat = Fin 1.
Proof.
  destruct (C79_negative fit_dom fit_start [-1; 0]%Z [1; 0]%nat) as (m' & E & H & _); [|exists m'; auto]. repeat (constructor; [cbn; lia|cbn; lia|]). constructor.
Qed.
Example C80_example : exists m', multi_of_json fit_dom (multi_to_json fit_dom fit_start) = Some m' /\ m_at m' [1; 0]%nat = Fin (1/4).
Proof.
  destruct (C80_roundtrip fit_dom fit_start ltac:(repeat constructor; discriminate)) as (m' & E & _ & H & _). exists m'. split; [exact E|]. rewrite H by (repeat constructor). reflexivity.
Qed.

Print Assumptions C79_fit.
Print Assumptions C79_forgets.
Print Assumptions C79_outside.
Print Assumptions C79_negative.
Print Assumptions C79_no_data.
Print Assumptions C31_fit_best.
Print Assumptions C80_roundtrip.
