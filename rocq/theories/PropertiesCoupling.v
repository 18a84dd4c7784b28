(** * Coupling circuits split the parameter vector (C55) *)
From Coq Require Import List Arith Bool Lia Reals Lra.
From Verif Require Import Num Graph Circuit EvalFacts SpecFacts JaxLayer JaxMeaning Coupling.
Import ListNotations.
Local Set Bullet Behavior "Strict Subproofs".
Local Open Scope nat_scope.

(** ** Specification *)

(** All parameters of a circuit in one vector, matrices row by row. *)
Definition ravel (a : array) : list num := match a with A1 x => x | A2 rows => concat rows end.
Definition parameters (L : layer) : list num := concat (map ravel (flatten L)).

(** Only vectors of parameters: no discrete and no dense sum layer. *)
Definition vectors (L : layer) : Prop := Forall (fun a => match a with A1 _ => True | A2 _ => False end) (flatten L).

(** Rebuilding a circuit from its own parameters is the identity. *)
Definition C55_full : Prop := forall L, create_circuit_from_parameters L (parameters L) = Some L.

(** ** Slices *)
Lemma slices_nth flat : forall o i s, nth_error (slices_from o flat) i = Some s ->
  exists a, nth_error flat i = Some a /\ fst s = o + list_sum (map len (firstn i flat)) /\ snd s = fst s + len a.
Proof.
  induction flat as [|a flat IH]; intros o [|i] s H; cbn in H; try discriminate.
  - inversion H; subst. exists a. cbn. split; [reflexivity|]. split; lia.
  - destruct (IH _ _ _ H) as (b & H1 & H2 & H3). exists b. cbn [nth_error firstn map]. unfold list_sum in *. cbn [fold_right] in *. split; [exact H1|]. split; [lia|exact H3].
Qed.

Lemma slices_length flat : forall o, length (slices_from o flat) = length flat.
Proof. induction flat; intros o; cbn; auto. Qed.

Lemma slices_cover flat : forall o p, o <= p < o + list_sum (map len flat) -> exists i s, nth_error (slices_from o flat) i = Some s /\ fst s <= p < snd s.
Proof.
  induction flat as [|a flat IH]; intros o p H; unfold list_sum in *; cbn [map fold_right] in H; [lia|]. destruct (Nat.lt_ge_cases p (o + len a)) as [X|X].
  - exists 0, (o, o + len a). cbn. split; [reflexivity|lia].
  - destruct (IH (o + len a) p) as (i & s & H1 & H2); [lia|]. exists (S i), s. split; auto.
Qed.

Lemma sum_firstn flat : forall i j a, i < j -> nth_error flat i = Some a -> list_sum (map len (firstn i flat)) + len a <= list_sum (map len (firstn j flat)).
Proof. induction flat as [|b flat IH]; intros [|i] [|j] a Hij H; unfold list_sum in *; cbn [nth_error firstn map fold_right] in *; try discriminate; try lia; [inversion H; lia|]. specialize (IH i j a ltac:(lia) H). lia. Qed.

(** There is one slice per parameter array, as long as the array.  The first starts at 0, each starts where the one before ends,
    the last ends at the number of trainable parameters; every position below lies in exactly one slice. *)
Theorem C55_slices L :
  length (slices L) = length (flatten L) /\
  (forall i s, nth_error (slices L) i = Some s -> exists a, nth_error (flatten L) i = Some a /\ snd s = fst s + len a) /\
  (forall s, nth_error (slices L) 0 = Some s -> fst s = 0) /\
  (forall i s s', nth_error (slices L) i = Some s -> nth_error (slices L) (S i) = Some s' -> fst s' = snd s) /\
  (forall s, nth_error (slices L) (length (flatten L) - 1) = Some s -> snd s = number_of_trainable_parameters L) /\
  (forall p, p < number_of_trainable_parameters L -> exists! i, exists s, nth_error (slices L) i = Some s /\ fst s <= p < snd s).
Proof.
  unfold slices, number_of_trainable_parameters. set (flat := flatten L). split; [apply slices_length|]. split; [|split; [|split; [|split]]].
  - intros i s H. destruct (slices_nth _ _ _ _ H) as (a & H1 & _ & H2). eauto.
  - intros s H. destruct (slices_nth _ _ _ _ H) as (a & _ & H1 & _). exact H1.
  - intros i s s' H H'. destruct (slices_nth _ _ _ _ H) as (a & H1 & H2 & H3). destruct (slices_nth _ _ _ _ H') as (a' & _ & H2' & _). rewrite H2', H3, H2. cbn [Nat.add]. clear -H1. revert i H1. induction flat as [|b flat IH]; intros [|i] H1; cbn [nth_error] in H1; try discriminate.
    + inversion H1; subst. cbn. lia.
    + specialize (IH i H1). change (firstn (S (S i)) (b :: flat)) with (b :: firstn (S i) flat). change (firstn (S i) (b :: flat)) with (b :: firstn i flat). cbn [map list_sum fold_right]. unfold list_sum in *. cbn [fold_right]. lia.
  - intros s H. destruct (slices_nth _ _ _ _ H) as (a & H1 & H2 & H3). rewrite H3, H2. cbn [Nat.add]. clear -H1. induction flat as [|b flat IH]; [cbn in H1; discriminate|]. destruct flat as [|c flat].
    + cbn in *. inversion H1; subst. lia.
    + replace (length (b :: c :: flat) - 1) with (S (length (c :: flat) - 1)) in * by (cbn; lia). cbn [nth_error] in H1. specialize (IH H1). cbn [firstn map list_sum fold_right] in *. unfold list_sum in *. cbn [fold_right] in *. lia.
  - intros p Hp. destruct (slices_cover flat 0 p) as (i & s & H1 & H2); [lia|]. exists i. split; [eauto|]. intros j (s' & H1' & H2').
    destruct (slices_nth _ _ _ _ H1) as (a & A1' & A2' & A3). destruct (slices_nth _ _ _ _ H1') as (a' & B1 & B2 & B3).
    destruct (Nat.lt_trichotomy i j) as [X|[X|X]]; [|exact X|]; exfalso.
    + pose proof (sum_firstn flat i j a X A1'). lia.
    + pose proof (sum_firstn flat j i a' X B1). lia.
Qed.

(** The slices put together are the parameter vector. *)
Lemma slices_concat flat : forall pre params, length params = list_sum (map len flat) ->
  concat (map (slice (pre ++ params)) (slices_from (length pre) flat)) = params.
Proof.
  induction flat as [|a flat IH]; intros pre params H.
  - cbn in H. destruct params; [reflexivity|discriminate].
  - cbn [slices_from map concat]. cbn [map list_sum fold_right] in H. unfold list_sum in H. cbn [fold_right] in H. fold (list_sum (map len flat)) in H.
    unfold slice at 1. cbn [fst snd]. rewrite skipn_app, skipn_all, Nat.sub_diag. cbn [app skipn]. replace (length pre + len a - length pre) with (len a) by lia.
    rewrite <- (firstn_skipn (len a) params) at 2. rewrite app_assoc. replace (length pre + len a) with (length (pre ++ firstn (len a) params)) by (rewrite app_length, firstn_length; lia).
    rewrite IH; [|rewrite skipn_length; lia]. apply firstn_skipn.
Qed.

Theorem C55_slices_lossless L params : length params = number_of_trainable_parameters L -> concat (map (slice params) (slices L)) = params.
Proof. intros H. apply (slices_concat (flatten L) [] params H). Qed.

(** ** Rebuilding *)
Lemma slices_own flat : forall pre post, Forall (fun a => match a with A1 _ => True | A2 _ => False end) flat ->
  map (fun s => A1 (slice (pre ++ concat (map ravel flat) ++ post) s)) (slices_from (length pre) flat) = flat.
Proof.
  induction flat as [|a flat IH]; intros pre post H; [reflexivity|]. inversion H as [|? ? H1 H2]; subst. destruct a as [x|]; [|destruct H1]. cbn [map slices_from concat ravel len]. f_equal.
  - f_equal. unfold slice. cbn [fst snd]. rewrite skipn_app, skipn_all, Nat.sub_diag. cbn [app skipn]. replace (length pre + length x - length pre) with (length x) by lia. rewrite <- app_assoc, firstn_app, firstn_all, Nat.sub_diag. cbn. now rewrite app_nil_r.
  - specialize (IH (pre ++ x) post H2). rewrite app_length in IH. rewrite <- !app_assoc in *. exact IH.
Qed.

Lemma reals_Fin x : reals (map Fin x) = Some x.
Proof. induction x as [|a x IH]; [reflexivity|]. unfold reals in *. cbn [map mapM]. now rewrite IH. Qed.

Lemma combine_fst_snd {A B} (l : list (A * B)) : combine (map fst l) (map snd l) = l.
Proof. induction l as [|[a b] l IH]; cbn; congruence. Qed.

Lemma fill_own ws rest : fill_all (fun w a => match a with A1 x => fill_sparse w x | A2 _ => None end) ws (map (fun w => A1 (map snd (s_entries w))) ws ++ rest) = Some (ws, rest).
Proof.
  induction ws as [|w ws IH]; [reflexivity|]. cbn [map app fill_all]. rewrite IH. unfold fill_sparse. rewrite map_length, Nat.eqb_refl, combine_fst_snd. now destruct w.
Qed.

Lemma rebuild_own L : vectors L -> forall rest, rebuild L (flatten L ++ rest) = Some (L, rest).
Proof.
  unfold vectors. induction L as [v i|ws cs IH|ws cs IH|edges cs IH] using layer_ind'; intros H rest.
  - destruct i as [loc ls ms|ps|is|loc cap]; cbn in *; auto. now rewrite !reals_Fin.
  - cbn [flatten] in *. apply Forall_app in H. destruct H as [H _]. cbn [rebuild]. rewrite <- app_assoc.
    match goal with |- context [(fix all (cs : list layer) (flat : list array) {struct cs} : option (list layer * list array) := _) cs] => set (all := (fix all (cs : list layer) (flat : list array) {struct cs} : option (list layer * list array) := _)) end.
    assert (E : forall r, all cs (concat (map flatten cs) ++ r) = Some (cs, r)).
    { clear -IH H. induction IH as [|c cs H1 H2 IHc]; intros r; [reflexivity|]. cbn [map concat] in *. apply Forall_app in H. destruct H as [Ha Hb]. rewrite <- app_assoc. cbn [all]. fold all. rewrite H1 by exact Ha. rewrite IHc by exact Hb. reflexivity. }
    rewrite E, fill_own. reflexivity.
  - cbn [flatten] in *. apply Forall_app in H. destruct H as [H Hw]. destruct ws as [|w ws]; [|inversion Hw; contradiction]. cbn [rebuild].
    match goal with |- context [(fix all (cs : list layer) (flat : list array) {struct cs} : option (list layer * list array) := _) cs] => set (all := (fix all (cs : list layer) (flat : list array) {struct cs} : option (list layer * list array) := _)) end.
    assert (E : forall r, all cs (concat (map flatten cs) ++ r) = Some (cs, r)).
    { clear -IH H. induction IH as [|c cs H1 H2 IHc]; intros r; [reflexivity|]. cbn [map concat] in *. apply Forall_app in H. destruct H as [Ha Hb]. rewrite <- app_assoc. cbn [all]. fold all. rewrite H1 by exact Ha. rewrite IHc by exact Hb. reflexivity. }
    rewrite <- app_assoc, E. reflexivity.
  - cbn [flatten] in *. cbn [rebuild].
    match goal with |- context [(fix all (cs : list layer) (flat : list array) {struct cs} : option (list layer * list array) := _) cs] => set (all := (fix all (cs : list layer) (flat : list array) {struct cs} : option (list layer * list array) := _)) end.
    assert (E : forall r, all cs (concat (map flatten cs) ++ r) = Some (cs, r)).
    { clear -IH H. induction IH as [|c cs H1 H2 IHc]; intros r; [reflexivity|]. cbn [map concat] in *. apply Forall_app in H. destruct H as [Ha Hb]. rewrite <- app_assoc. cbn [all]. fold all. rewrite H1 by exact Ha. rewrite IHc by exact Hb. reflexivity. }
    rewrite E. reflexivity.
Qed.

(** For circuits whose parameters are all vectors.  What is missing: discrete layers and dense sum layers, whose parameters are matrices. *)
Theorem C55_rebuild_partial L : vectors L -> create_circuit_from_parameters L (parameters L) = Some L /\ length (parameters L) = number_of_trainable_parameters L.
Proof.
  intros H. split.
  - unfold create_circuit_from_parameters, slices, parameters. pose proof (slices_own (flatten L) [] [] H) as E. cbn [app length] in E. rewrite app_nil_r in E. rewrite E. pose proof (rebuild_own L H []) as E2. rewrite app_nil_r in E2. now rewrite E2.
  - unfold parameters, number_of_trainable_parameters, vectors in *. induction H as [|a l H1 H2 IH]; [reflexivity|]. destruct a; [|destruct H1]. cbn. rewrite app_length. unfold list_sum in IH. lia.
Qed.

(** A conditioner that always generates the circuit's own parameters leaves the circuit's likelihood as it is. *)
Theorem C55_own_conditioner_partial L gc cc x given : vectors L -> select x gc = Some given ->
  conditional_log_likelihood_single (fun _ => parameters L) gc L cc x = match select x cc with None => None | Some point => ll L point end.
Proof. intros H E. unfold conditional_log_likelihood_single. rewrite E. destruct (C55_rebuild_partial L H) as [-> _]. reflexivity. Qed.

(** ** Generated parameters *)

(** Two circuits that differ in parameters only: locations and log scales of Gaussian layers and log weights of sparse sum layers. *)
Inductive same_shape : layer -> layer -> Prop :=
| SGauss v loc loc' ls ls' ms : length loc = length loc' -> length ls = length ls' -> same_shape (LInput v (IGauss loc ls ms)) (LInput v (IGauss loc' ls' ms))
| SUniform v is : same_shape (LInput v (IUniform is)) (LInput v (IUniform is))
| SDirac v loc cap : same_shape (LInput v (IDirac loc cap)) (LInput v (IDirac loc cap))
| SSparse ws ws' cs cs' : Forall2 (fun w w' => s_rows w = s_rows w' /\ s_cols w = s_cols w' /\ map fst (s_entries w) = map fst (s_entries w')) ws ws' ->
    Forall2 same_shape cs cs' -> same_shape (LSparse ws cs) (LSparse ws' cs')
| SProd edges cs cs' : Forall2 same_shape cs cs' -> same_shape (LProd edges cs) (LProd edges cs').

Lemma fill_other ws ws' rest : Forall2 (fun w w' => s_rows w = s_rows w' /\ s_cols w = s_cols w' /\ map fst (s_entries w) = map fst (s_entries w')) ws ws' ->
  fill_all (fun w a => match a with A1 x => fill_sparse w x | A2 _ => None end) ws (map (fun w => A1 (map snd (s_entries w))) ws' ++ rest) = Some (ws', rest).
Proof.
  induction 1 as [|w w' ws ws' (H1 & H2 & H3) H IH]; [reflexivity|]. cbn [map app fill_all]. rewrite IH. unfold fill_sparse.
  assert (E : length (s_entries w) = length (s_entries w')) by (rewrite <- (map_length fst (s_entries w)), H3; apply map_length).
  rewrite map_length, E, Nat.eqb_refl, H1, H2, H3, combine_fst_snd. now destruct w'.
Qed.

Lemma rebuild_other L : forall L', same_shape L L' -> vectors L' /\ map len (flatten L) = map len (flatten L') /\ forall rest, rebuild L (flatten L' ++ rest) = Some (L', rest).
Proof.
  unfold vectors. induction L as [v i|ws cs IH|ws cs IH|edges cs IH] using layer_ind'; intros L' H.
  - inversion H; subst; cbn; (split; [auto using Forall_cons, Forall_nil|]); (split; [|intros rest]); auto; [rewrite !map_length; congruence|now rewrite !reals_Fin].
  - inversion H as [| | |? ws' ? cs' Hw Hc|]; subst. cbn [flatten rebuild].
    match goal with |- context [(fix all (cs : list layer) (flat : list array) {struct cs} : option (list layer * list array) := _) cs] => set (all := (fix all (cs : list layer) (flat : list array) {struct cs} : option (list layer * list array) := _)) end.
    assert (E : Forall (fun a => match a with A1 _ => True | A2 _ => False end) (concat (map flatten cs')) /\ map len (concat (map flatten cs)) = map len (concat (map flatten cs')) /\
      forall r, all cs (concat (map flatten cs') ++ r) = Some (cs', r)).
    { clear -IH Hc. revert cs' Hc. induction IH as [|c cs H1 H2 IHc]; intros cs'' Hc; inversion Hc as [|? c' ? cs' K1 K2]; subst; [repeat constructor|]. cbn [map concat].
      destruct (H1 _ K1) as (A1 & A2 & A3), (IHc _ K2) as (B1 & B2 & B3). split; [now apply Forall_app|]. split; [now rewrite !map_app, A2, B2|].
      intros r. rewrite <- app_assoc. cbn [all]. fold all. rewrite A3, B3. reflexivity. }
    destruct E as (E1 & E2 & E3). split; [apply Forall_app; split; [exact E1|apply Forall_forall; intros a Ha; apply in_map_iff in Ha; now destruct Ha as (w & <- & _)]|].
    split; [|intros rest; rewrite <- app_assoc, E3, fill_other by exact Hw; reflexivity].
    rewrite !map_app, E2, !map_map. f_equal. clear -Hw. induction Hw as [|w w' ws ws' (_ & _ & Hw) _ IH]; [reflexivity|]. cbn [map]. f_equal; [|exact IH].
    cbn. rewrite !map_length. rewrite <- (map_length fst (s_entries w)), Hw. apply map_length.
  - inversion H.
  - inversion H as [| | | |? ? cs' Hc]; subst. cbn [flatten rebuild].
    match goal with |- context [(fix all (cs : list layer) (flat : list array) {struct cs} : option (list layer * list array) := _) cs] => set (all := (fix all (cs : list layer) (flat : list array) {struct cs} : option (list layer * list array) := _)) end.
    assert (E : Forall (fun a => match a with A1 _ => True | A2 _ => False end) (concat (map flatten cs')) /\ map len (concat (map flatten cs)) = map len (concat (map flatten cs')) /\
      forall r, all cs (concat (map flatten cs') ++ r) = Some (cs', r)).
    { clear -IH Hc. revert cs' Hc. induction IH as [|c cs H1 H2 IHc]; intros cs'' Hc; inversion Hc as [|? c' ? cs' K1 K2]; subst; [repeat constructor|]. cbn [map concat].
      destruct (H1 _ K1) as (A1 & A2 & A3), (IHc _ K2) as (B1 & B2 & B3). split; [now apply Forall_app|]. split; [now rewrite !map_app, A2, B2|].
      intros r. rewrite <- app_assoc. cbn [all]. fold all. rewrite A3, B3. reflexivity. }
    destruct E as (E1 & E2 & E3). split; [exact E1|]. split; [exact E2|]. intros rest. now rewrite E3.
Qed.

Lemma slices_from_len flat : forall flat' o, map len flat = map len flat' -> slices_from o flat = slices_from o flat'.
Proof. induction flat as [|a flat IH]; intros [|b flat'] o H; try discriminate; [reflexivity|]. inversion H as [[H1 H2]]. cbn [slices_from]. rewrite H1. f_equal. now apply IH. Qed.

(** The parameters of any other circuit of the same shape turn the circuit into that circuit. *)
Theorem C55_parameters_partial L L' : same_shape L L' -> create_circuit_from_parameters L (parameters L') = Some L' /\ length (parameters L') = number_of_trainable_parameters L.
Proof.
  intros H. destruct (rebuild_other L L' H) as (V & E & Hr). split.
  - unfold create_circuit_from_parameters, slices, parameters. rewrite (slices_from_len _ _ 0 E). pose proof (slices_own (flatten L') [] [] V) as E1. cbn [app length] in E1. rewrite app_nil_r in E1. rewrite E1. specialize (Hr []). rewrite app_nil_r in Hr. now rewrite Hr.
  - unfold number_of_trainable_parameters. rewrite E. apply C55_rebuild_partial. exact V.
Qed.

(** The conditional log likelihood is that of the circuit generated from the conditioning columns, at the circuit's columns. *)
Theorem C55_conditioner_partial generate L L' gc cc x given point : select x gc = Some given -> select x cc = Some point ->
  same_shape L L' -> generate given = parameters L' -> conditional_log_likelihood_single generate gc L cc x = ll L' point.
Proof. intros E1 E2 H E. unfold conditional_log_likelihood_single. rewrite E1, E2, E. destruct (C55_parameters_partial L L' H) as [-> _]. reflexivity. Qed.

(** What the generated vector must be like: the check passes exactly if the conditioner returns one number per parameter. *)
Theorem C55_validate_partial L n : vectors L -> matches n L = true <-> n = length (parameters L).
Proof. intros H. unfold matches. rewrite Nat.eqb_eq. rewrite (proj2 (C55_rebuild_partial L H)). split; intros; congruence. Qed.

(** Without that guard: the matrices of discrete and dense layers count with their rows only, so the check asks for too few
    numbers, and no vector of numbers makes a circuit of them. *)
Theorem C55_matrix v ps params : number_of_trainable_parameters (LInput v (IDiscrete ps)) = length ps /\ matches (length ps) (LInput v (IDiscrete ps)) = true /\
  create_circuit_from_parameters (LInput v (IDiscrete ps)) params = None.
Proof.
  assert (E : number_of_trainable_parameters (LInput v (IDiscrete ps)) = length ps) by (cbn; lia). split; [exact E|]. split; [unfold matches; rewrite E; apply Nat.eqb_refl|]. reflexivity.
Qed.
Theorem C55_dense w L : number_of_trainable_parameters (LDense [w] [L]) = number_of_trainable_parameters L + d_rows w.
Proof. unfold number_of_trainable_parameters. cbn [flatten map concat]. rewrite app_nil_r, map_app, list_sum_app. cbn. rewrite map_length, seq_length. lia. Qed.
Theorem C55_dense_entries w L r c : r < d_rows w -> c < d_cols w -> exists rows, flatten (LDense [w] [L]) = flatten L ++ [A2 rows] /\ nth c (nth r rows []) NaN = d_at w r c.
Proof.
  intros Hr Hc. cbn [flatten map concat]. rewrite app_nil_r. eexists. split; [reflexivity|].
  erewrite (nth_indep _ [] (map (d_at w 0) (seq 0 (d_cols w)))) by (now rewrite map_length, seq_length). rewrite (map_nth (fun r => map (d_at w r) (seq 0 (d_cols w)))), seq_nth by exact Hr.
  erewrite (nth_indep _ NaN (d_at w (0 + r) 0)) by (now rewrite map_length, seq_length). rewrite (map_nth (d_at w (0 + r))), seq_nth by exact Hc. reflexivity.
Qed.

(** A discrete layer with one node and two states has two parameters, but one slice of length 1, and no circuit is rebuilt. *)
Theorem C55_refuted : ~ C55_full.
Proof. intros H. specialize (H (LInput 0 (IDiscrete [[Fin 0; Fin 0]]))). cbn in H. discriminate H. Qed.

(** The mixture of two Gaussians: locations, log scales and weights are six parameters. *)
Definition mixture_layer (l1 l2 s1 s2 w1 w2 : R) : layer :=
  LSparse [mkSparse 1 2 [(0, 0, Fin w1); (0, 1, Fin w2)]] [LInput 0 (IGauss [l1; l2] [s1; s2] [0; 0]%R)].
Example C55_case :
  slices (mixture_layer 0 1 2 3 4 5) = [(0, 2); (2, 4); (4, 6)] /\
  create_circuit_from_parameters (mixture_layer 0 1 2 3 4 5) [Fin 6; Fin 7; Fin 8; Fin 9; Fin 10; Fin 11] = Some (mixture_layer 6 7 8 9 10 11) /\
  vectors (mixture_layer 0 1 2 3 4 5).
Proof. split; [reflexivity|]. split; [reflexivity|]. repeat constructor. Qed.

(** The location of a Gaussian is generated from the other column. *)
Example C55_generated : conditional_log_likelihood_single (fun g => [Fin (nth 0 g 0%R); Fin 0]) [0] (LInput 0 (IGauss [0] [0] [0])%R) [1] [3; 5]%R =
  ll (LInput 0 (IGauss [3] [0] [0])%R) [5]%R.
Proof. eapply C55_conditioner_partial; [reflexivity|reflexivity|constructor; reflexivity|reflexivity]. Qed.

Print Assumptions C55_slices.
Print Assumptions C55_slices_lossless.
Print Assumptions C55_rebuild_partial.
Print Assumptions C55_own_conditioner_partial.
Print Assumptions C55_refuted.
Print Assumptions C55_parameters_partial.
Print Assumptions C55_conditioner_partial.
Print Assumptions C55_validate_partial.
Print Assumptions C55_matrix.
Print Assumptions C55_dense.
Print Assumptions C55_dense_entries.
