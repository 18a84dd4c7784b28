(** * Layered circuits: sum layers compute normalised mixtures (C50), product layers and columns (C51) *)
From Coq Require Import List Arith Bool Lia Reals Lra ZArith.
From Verif Require Import Num Graph Spec SpecFacts Circuit EvalFacts Interval Dist DistFacts NormalizeFacts BayesNet PropertiesInteraction JaxLayer JaxLayerFacts JaxSpec JaxMeaning.
Import ListNotations.
Local Set Bullet Behavior "Strict Subproofs".
Local Open Scope nat_scope.

(** ** C50 *)

(** The log-likelihood of every node of a sparse sum layer is the logarithm of the weighted sum of the child nodes' densities
    over the sum of the weights, if there is an edge at all, the weights are weights, the indices are in bounds and the child
    layers can be evaluated.  A node whose weights sum to zero gets NaN (zero over zero). *)
Theorem C50_sparse_sum_layer ws cs x llss n : ws <> [] -> length ws = length cs -> Forall (fun w => s_rows w = n) ws ->
  Forall2 (fun c lls => ll c x = Some lls) cs llss ->
  (exists w, In w ws /\ s_entries w <> []) ->
  Forall2 (fun w lls => Forall (fun e => fst (fst e) < n /\ snd (fst e) < length lls /\ lw_ok (snd e)) (s_entries w)) ws llss ->
  exists result, ll (LSparse ws cs) x = Some result /\ length result = n /\
  forall r, r < n -> nth r result NaN = nlog (mixture (map (sparse_edges r) ws) (map (fun lls c => nexp (nth c lls NaN)) llss)).
Proof.
  intros Hne L Hrows Hc (w & Hw & Hwe) Hb. destruct ws as [|w0 ws]; [contradiction|]. assert (E0 : s_rows w0 = n) by now inversion Hrows. subst n.
  assert (E : map (fun c => ll c x) cs = map Some llss) by (clear -Hc; induction Hc as [|c lls cs llss H1 H2 IH]; cbn; [reflexivity|now rewrite H1, IH]).
  cbn [ll]. rewrite E. rewrite (sparse_mixture w0 ws llss).
  - eexists. split; [reflexivity|]. split; [now rewrite map_length, seq_length|]. intros r Hr. rewrite nth_map_seq by exact Hr. reflexivity.
  - clear -Hb. induction Hb; cbn in *; congruence.
  - intros X. destruct (s_entries w) as [|e es] eqn:Ee; [contradiction|]. assert (Hin : In e (all_entries (w0 :: ws))). { unfold all_entries. apply in_concat. exists (s_entries w). split; [now apply in_map|rewrite Ee; now left]. } rewrite X in Hin. destruct Hin.
  - clear -Hb Hrows. revert Hb Hrows. generalize (w0 :: ws) as l, (s_rows w0) as n. intros l n Hb. induction Hb as [|w lls l llss H1 H2 IH]; intros Hrows; constructor; inversion Hrows; subst; auto. eapply Forall_impl; [|exact H1]. cbn. tauto.
  - exact Hrows.
  - intros r Hr. clear -Hb. revert Hb. generalize (w0 :: ws) as l, (s_rows w0) as n. intros l n Hb. induction Hb as [|w lls l llss H1 H2 IH]; cbn [map]; constructor; auto. unfold sparse_edges. apply Forall_map, Forall_forall. intros e He. apply filter_In in He. rewrite Forall_forall in H1. cbn. specialize (H1 e (proj1 He)). tauto.
Qed.

(** The same for dense sum layers; here every node has edges, and their weights must not all be zero. *)
Theorem C50_dense_sum_layer ws cs x llss n : ws <> [] -> length ws = length cs ->
  Forall2 (fun c lls => ll c x = Some lls) cs llss ->
  Forall2 (fun w lls => d_rows w = n /\ d_cols w = length lls) ws llss ->
  (forall r, r < n -> (forall w c, In w ws -> c < d_cols w -> lw_ok (d_at w r c)) /\ (0 < total_weight (map (dense_edges r) ws))%R) ->
  exists result, ll (LDense ws cs) x = Some result /\ length result = n /\
  forall r, r < n -> nth r result NaN = nlog (mixture (map (dense_edges r) ws) (map (fun lls c => nexp (nth c lls NaN)) llss)).
Proof.
  intros Hne L Hc Hb Hok. destruct ws as [|w0 ws]; [contradiction|]. assert (E0 : d_rows w0 = n) by (inversion Hb as [|? ? ? ? [? ?]]; auto). subst n.
  assert (E : map (fun c => ll c x) cs = map Some llss) by (clear -Hc; induction Hc as [|c lls cs llss H1 H2 IH]; cbn; [reflexivity|now rewrite H1, IH]).
  cbn [ll]. rewrite E. rewrite (dense_mixture w0 ws llss).
  - eexists. split; [reflexivity|]. split; [now rewrite map_length, seq_length|]. intros r Hr. rewrite nth_map_seq by exact Hr. reflexivity.
  - exact Hb.
  - intros r Hr. now apply Hok.
  - intros r Hr. apply Forall_map, Forall_forall. intros w Hw. unfold dense_edges. apply Forall_map, Forall_forall. intros c Hc'. apply in_seq in Hc'. cbn. apply (Hok r Hr); auto. lia.
Qed.

(** [normalized_weights]: the weight of an edge over the sum of the weights of its node. *)
Theorem C50_normalized_weights ws n : Forall (fun w => Forall (fun e => fst (fst e) < n /\ lw_ok (snd e)) (s_entries w)) ws -> all_entries ws <> [] ->
  (forall r, r < n -> (0 < total_weight (map (sparse_edges r) ws))%R) ->
  sparse_normalized_weights n ws = Some (map (fun e => (fst e, Fin (wexp (snd e) / total_weight (map (sparse_edges (fst (fst e))) ws)))) (all_entries ws)).
Proof.
  intros Hb Hne Hp. assert (Ha : forall e, In e (all_entries ws) -> fst (fst e) < n /\ lw_ok (snd e)).
  { intros e He. unfold all_entries in He. apply in_concat in He. destruct He as (es & Hes & He). apply in_map_iff in Hes. destruct Hes as (w & <- & Hw). rewrite Forall_forall in Hb. specialize (Hb w Hw). rewrite Forall_forall in Hb. now apply Hb. }
  unfold sparse_normalized_weights. destruct (log_constants n ws) as (z & -> & Hz); auto.
  { apply Forall_map, Forall_forall. intros e He. now apply Ha. }
  apply mapM_some. intros e He. destruct (Ha e He) as [H1 H2]. rewrite (gather_nth _ _ NaN) by now rewrite map_length, seq_length. rewrite nth_map_seq by exact H1.
  specialize (Hp _ H1). destruct (Hz (fst (fst e))) as [-> | [_ X]]; [|rewrite total_row_weight in Hp; lra]. rewrite <- total_row_weight. set (T := total_weight _) in *. rewrite nlog_Fin_pos by exact Hp. f_equal. f_equal.
  destruct e as [rc w]. cbn [fst snd] in *. destruct w as [| |w|]; cbn in H2; try tauto; cbn.
  - f_equal. field. lra.
  - f_equal. unfold Rdiv. rewrite exp_plus, exp_Ropp, exp_ln by exact Hp. reflexivity.
Qed.

(** A layer with two child layers, three edges and unequal weights: 1/4 of the first Dirac, 3/4 of nodes without mass. *)
Example C50_case :
  let ws := [mkSparse 1 2 [(0, 0, Fin 0); (0, 1, Fin (ln 2))]; mkSparse 1 1 [(0, 0, Fin 0)]] in
  let cs := [LInput 0 (IDirac [1; 2]%R [Fin 1; Fin 1]); LInput 0 (IDirac [3]%R [Fin 1])] in
  exists result, ll (LSparse ws cs) [1%R] = Some result /\ length result = 1 /\ nth 0 result NaN = nlog (Fin (1 / 4)).
Proof.
  intros ws cs. destruct (C50_sparse_sum_layer ws cs [1%R] [[Fin 0; NInf]; [NInf]] 1) as (result & E & Hl & H).
  - discriminate.
  - reflexivity.
  - repeat constructor.
  - assert (X1 : nlog (Fin 1) = Fin 0) by (rewrite nlog_Fin_pos, ln_1 by lra; reflexivity).
    repeat constructor; cbn -[nlog]; unfold zip_with; cbn -[nlog]; rewrite X1; repeat (match goal with |- context [Reqb ?a ?b] => destruct (Reqb_spec a b); [lra|] || (destruct (Reqb_spec a b); [|lra]) end); reflexivity.
  - exists (mkSparse 1 2 [(0, 0, Fin 0); (0, 1, Fin (ln 2))]). split; [now left|discriminate].
  - repeat constructor; cbn; lia.
  - exists result. split; [exact E|]. split; [exact Hl|]. rewrite (H 0) by lia. f_equal. unfold mixture, total_weight. cbn. rewrite exp_0, exp_ln by lra. destruct (Req_EM_T _ _) as [X|X]; [lra|]. f_equal. field.
Qed.

(** ** C51 *)

(** The children of a sum layer speak about the same variables; there is at least one child. *)
Fixpoint scoped (L : layer) : Prop :=
  match L with
  | LInput _ _ => True
  | LSparse _ cs | LDense _ cs => cs <> [] /\ (forall c d, In c cs -> In d cs -> variables c = variables d) /\ fold_right and True (map scoped cs)
  | LProd _ cs => (forall i j c d v, nth_error cs i = Some c -> nth_error cs j = Some d -> In v (variables c) -> In v (variables d) -> i = j) /\ fold_right and True (map scoped cs)
  end.

(** Every layered circuit over the variables 0, ..., n-1, given a row of the data, yields for every node the density of the
    circuit that the node means. *)
Definition C51_full : Prop := forall L env n, sound L -> scoped L -> variables L = seq 0 n -> fits env L ->
  exists lls, ll L (map env (seq 0 n)) = Some lls /\ length lls = number_of_nodes L /\
  forall r, r < number_of_nodes L -> nth r lls NaN = nlog (density env (tree L r)).

(** No product layer below. *)
Fixpoint product_free (L : layer) : Prop :=
  match L with
  | LInput _ _ => True
  | LSparse _ cs | LDense _ cs => fold_right and True (map product_free cs)
  | LProd _ _ => False
  end.

(** Below a product layer there are only product layers over the first variables 0, ..., m-1. *)
Fixpoint well_nested (L : layer) : Prop :=
  match L with
  | LInput _ _ => True
  | LSparse _ cs | LDense _ cs => fold_right and True (map well_nested cs)
  | LProd _ cs => fold_right and True (map (fun c => (product_free c \/ exists m, variables c = seq 0 m) /\ well_nested c) cs)
  end.

Lemma product_free_aligned L : product_free L -> scoped L -> exists v, variables L = [v] /\ aligned [v] L.
Proof.
  assert (G : forall cs, Forall (fun L => product_free L -> scoped L -> exists v, variables L = [v] /\ aligned [v] L) cs ->
    fold_right and True (map product_free cs) -> cs <> [] -> (forall c d, In c cs -> In d cs -> variables c = variables d) -> fold_right and True (map scoped cs) ->
    exists v, match cs with c :: _ => variables c | [] => [] end = [v] /\ fold_right and True (map (aligned [v]) cs)).
  { intros cs IH Hp Hne Hv Hs. rewrite fold_and_Forall in Hp, Hs. rewrite Forall_forall in IH, Hp, Hs. destruct cs as [|c cs]; [contradiction|]. destruct (IH c) as (v & E & A); auto using in_eq. exists v. split; [exact E|]. rewrite fold_and_Forall. apply Forall_forall. intros d Hd.
    destruct (IH d) as (v' & E' & A'); auto. rewrite (Hv d c), E in E' by auto using in_eq. inversion E'; subst. exact A'. }
  induction L as [v i|ws cs IH|ws cs IH|edges cs IH] using layer_ind'; intros Hp Hs; cbn [product_free scoped variables aligned] in *.
  - exists v. split; reflexivity.
  - destruct Hs as (H1 & H2 & H3). now apply G.
  - destruct Hs as (H1 & H2 & H3). now apply G.
  - destruct Hp.
Qed.

Lemma well_nested_aligned L : forall n, well_nested L -> scoped L -> variables L = seq 0 n -> aligned (seq 0 n) L.
Proof.
  assert (G : forall cs n, Forall (fun L => forall n, well_nested L -> scoped L -> variables L = seq 0 n -> aligned (seq 0 n) L) cs ->
    fold_right and True (map well_nested cs) -> (forall c d, In c cs -> In d cs -> variables c = variables d) -> fold_right and True (map scoped cs) ->
    match cs with c :: _ => variables c | [] => [] end = seq 0 n -> fold_right and True (map (aligned (seq 0 n)) cs)).
  { intros cs n IH Hw Hv Hs E. rewrite fold_and_Forall in Hw, Hs. rewrite Forall_forall in IH, Hw, Hs. rewrite fold_and_Forall. apply Forall_forall. intros c Hc. apply IH; auto. destruct cs as [|c0 cs]; [destruct Hc|]. rewrite (Hv c c0); auto using in_eq. }
  induction L as [v i|ws cs IH|ws cs IH|edges cs IH] using layer_ind'; intros n Hw Hs E; cbn [well_nested scoped variables aligned] in *.
  - now rewrite <- E.
  - destruct Hs as (H1 & H2 & H3). now apply G.
  - destruct Hs as (H1 & H2 & H3). now apply G.
  - destruct Hs as [_ Hs]. rewrite fold_and_Forall in Hw, Hs. rewrite Forall_forall in IH, Hw, Hs. rewrite fold_and_Forall. apply Forall_forall. intros c Hc.
    assert (Hsub : forall v, In v (variables c) -> v < n). { intros v Hv. assert (X : In v (sset_of (concat (map variables cs)))) by (apply sset_of_In, in_concat; exists (variables c); split; [now apply in_map|exact Hv]). rewrite E in X. apply in_seq in X. lia. }
    assert (Hg : mapM (gather (seq 0 n)) (variables c) = Some (variables c)).
    { rewrite (mapM_some _ (fun v => v)); [now rewrite map_id|]. intros v Hv. specialize (Hsub v Hv). rewrite (gather_nth _ _ 0) by now rewrite seq_length. now rewrite seq_nth. }
    exists (variables c). split; [exact Hg|]. destruct (Hw c Hc) as [[Hp|(m & Em)] Hn].
    + destruct (product_free_aligned c Hp (Hs c Hc)) as (v & Ev & Av). now rewrite Ev.
    + rewrite Em. now apply IH; auto.
Qed.

(** The full statement holds if nested product layers are over the first variables only; in particular if no product layer is
    nested in another. *)
Theorem C51_columns_partial L env n : sound L -> scoped L -> variables L = seq 0 n -> fits env L -> well_nested L ->
  exists lls, ll L (map env (seq 0 n)) = Some lls /\ length lls = number_of_nodes L /\
  forall r, r < number_of_nodes L -> nth r lls NaN = nlog (density env (tree L r)).
Proof.
  intros Hs Hsc Hv Hf Hw. destruct (layer_value env L (seq 0 n) Hs Hf (well_nested_aligned L n Hw Hsc Hv)) as (lls & E1 & E2 & E3). exists lls. split; [exact E1|]. split; [exact E2|]. intros r Hr. rewrite <- E3 by exact Hr. now rewrite nlog_nexp.
Qed.

(** A product of variable 0 with a product of variables 1 and 2: the inner product layer is handed columns 1 and 2 and reads
    the second of them for both its children. *)
Definition dirac_at (v : nat) : layer := LInput v (IDirac [INR v] [Fin 1]).
Definition two_edges : sparse nat := mkSparse 2 1 [(0, 0, 0); (1, 0, 0)].
Definition nested : layer := LProd two_edges [dirac_at 0; LProd two_edges [dirac_at 1; dirac_at 2]].

Lemma two_sound cs : length cs = 2 -> Forall (fun c => number_of_nodes c = 1) cs -> fold_right and True (map sound cs) -> sound (LProd two_edges cs).
Proof.
  intros L H1 H2. split; [now rewrite L|]. split; [|exact H2]. intros e c He Hc. rewrite Forall_forall in H1. rewrite (H1 c) by now apply nth_error_In in Hc. cbn in He. destruct He as [<-|[<-|[]]]; cbn; lia.
Qed.

Lemma two_scoped a b : (forall v, In v (variables a) -> ~ In v (variables b)) -> scoped a -> scoped b -> scoped (LProd two_edges [a; b]).
Proof.
  intros H Ha Hb. split; [|cbn; auto]. intros i j c d v Hi Hj Hc Hd. destruct i as [|[|[|i]]], j as [|[|[|j]]]; cbn in Hi, Hj; try discriminate; inversion Hi; inversion Hj; subst; auto; exfalso; eapply H; eauto.
Qed.

Theorem C51_refuted : ~ C51_full.
Proof.
  intros F. destruct (F nested INR 3) as (lls & E & _ & H).
  - apply two_sound; [reflexivity|repeat constructor|]. cbn [map fold_right]. repeat split; try reflexivity; try (apply two_sound; [reflexivity|repeat constructor|cbn; repeat split; reflexivity]).
    all: intros e c He Hc; cbn in He; destruct He as [<-|[<-|[]]]; cbn in Hc; inversion Hc; cbn; lia.
  - apply two_scoped; [|exact I|].
    + intros v Hv Hv'. cbn in Hv, Hv'. lia.
    + apply two_scoped; [|exact I|exact I]. intros v Hv Hv'. cbn in Hv, Hv'. lia.
  - reflexivity.
  - cbn. tauto.
  - specialize (H 0 ltac:(cbn; lia)). assert (X1 : nlog (Fin 1) = Fin 0) by (rewrite nlog_Fin_pos, ln_1 by lra; reflexivity).
    assert (El : lls = [NInf]).
    { cbn -[nlog INR] in E. unfold zip_with in E. cbn -[nlog INR] in E. rewrite X1 in E.
      destruct (Reqb_spec (INR 0) (INR 0)); [|lra]. destruct (Reqb_spec (INR 2) (INR 1)); [cbn in *; lra|]. destruct (Reqb_spec (INR 2) (INR 2)); [|lra]. cbn -[INR] in E. unfold scatter_add in E. cbn -[INR] in E. inversion E. reflexivity. }
    subst lls. cbn -[nlog INR] in H. unfold density in H. cbn -[nlog INR] in H. rewrite X1 in H.
    destruct (Reqb_spec (INR 0) (INR 0)); [|lra]. destruct (Reqb_spec (INR 1) (INR 1)); [|lra]. destruct (Reqb_spec (INR 2) (INR 2)); [|lra]. cbn -[nlog INR] in H. rewrite exp_0 in H. rewrite nlog_Fin_pos in H by lra. discriminate H.
Qed.

(** A mixture of two products over two variables, evaluated at the point where both Diracs of the first product sit. *)
Example C51_case : exists lls,
  ll (LDense [mkDense 1 2 (fun _ _ => Fin 0)] [LProd (mkSparse 2 2 [(0, 0, 0); (0, 1, 1); (1, 0, 0); (1, 1, 0)])
       [LInput 0 (IDirac [0; 5]%R [Fin 1; Fin 1]); LInput 1 (IDirac [1]%R [Fin 1])]]) [0; 1]%R = Some lls /\ length lls = 1 /\ nth 0 lls NaN = nlog (Fin (1 / 2)).
Proof.
  set (P := LProd _ _). set (L := LDense _ _).
  assert (X1 : nlog (Fin 1) = Fin 0) by (rewrite nlog_Fin_pos, ln_1 by lra; reflexivity).
  destruct (C51_columns_partial L INR 2) as (lls & E & Hl & H).
  - cbn [sound L]. split; [discriminate|]. split; [repeat constructor|]. split; [|cbn; repeat split; auto].
    + split; [repeat constructor|]. split; [|intros [|r] Hr; [|cbn in Hr; lia]; cbn; repeat constructor; cbn; lia].
      intros r _. unfold total_weight. cbn. rewrite exp_0. lra.
    + intros e c He Hc. cbn in He. repeat (destruct He as [<-|He]; [cbn in Hc; inversion Hc; cbn; lia|]). destruct He.
  - cbn [scoped L]. split; [discriminate|]. split; [intros c d [<-|[]] [<-|[]]; reflexivity|]. cbn [map fold_right]. split; [|exact I]. split; [|cbn; auto].
    intros i j c d v Hi Hj Hc Hd. destruct i as [|[|[|i]]], j as [|[|[|j]]]; cbn in Hi, Hj; try discriminate; inversion Hi; inversion Hj; subst; auto; cbn in Hc, Hd; lia.
  - reflexivity.
  - cbn. tauto.
  - cbn. tauto.
  - exists lls. split; [exact E|]. split; [exact Hl|]. rewrite (H 0) by (cbn; lia). f_equal. cbn [tree L map]. rewrite density_sum; [|unfold total_weight; cbn; rewrite exp_0; lra].
    unfold mixture, total_weight, weighted, density. cbn -[nlog]. rewrite X1. repeat match goal with |- context [Reqb ?a ?b] => (destruct (Reqb_spec a b); [|lra]) || (destruct (Reqb_spec a b); [lra|]) end. cbn. rewrite exp_0. destruct (Req_EM_T _ _) as [X|X]; [lra|]. f_equal. field.
Qed.

Print Assumptions C50_sparse_sum_layer.
Print Assumptions C50_dense_sum_layer.
Print Assumptions C50_normalized_weights.
Print Assumptions C51_columns_partial.
Print Assumptions C51_refuted.
