(** * Layered circuits as networkx circuits (C54) *)
From Coq Require Import List Arith Bool Lia Sorted Reals Lra ZArith.
From Verif Require Import Num Graph Spec SpecFacts Circuit EvalFacts Interval Dist DistFacts NormalizeFacts BayesNet PropertiesInteraction
  JaxLayer JaxLayerFacts JaxSpec JaxMeaning PropertiesJaxLayer JaxToNx JaxToNxFacts.
Import ListNotations.
Local Set Bullet Behavior "Strict Subproofs".
Local Open Scope nat_scope.

(** ** to_nx *)

(** Every layered circuit is written as a networkx circuit in which unit [r] of the result unfolds to exactly the tree that
    node [r] means: the same shape, every leaf with its parameters, every sum with its normalised weights. *)
Definition C54_to_nx_full : Prop := forall n bar L, sound L -> Forall (covered n) (all_layers L) ->
  exists g ids, to_nx n bar L (mkGraph [] []) = Some (g, ids) /\ length ids = number_of_nodes L /\
  forall r, r < number_of_nodes L -> unfolds g (nth r ids 0) (tree L r).

(** What is missing: dense sum layers (their weights are changed, see below) and Dirac layers without a progress bar (they raise). *)
Theorem C54_to_nx_partial n bar L : sound L -> indexed L -> Forall (covered n) (all_layers L) -> (bar = true \/ Forall dirac_free (all_layers L)) ->
  exists g ids, to_nx n bar L (mkGraph [] []) = Some (g, ids) /\ NoDup ids /\ length ids = number_of_nodes L /\
  forall r, r < number_of_nodes L -> unfolds g (nth r ids 0) (tree L r).
Proof.
  intros H1 H2 H3 H4. destruct (to_nx_ok n bar L H1 H2 H3 H4 (mkGraph [] [])) as (g & ids & E & X & N & Hl & B & U).
  - split; [reflexivity|]. intros e [].
  - exists g, ids. auto.
Qed.

(** The networkx circuit has the likelihoods that the layered circuit computes, where those are right (C51). *)
Theorem C54_to_nx_likelihood_partial L env n bar : sound L -> scoped L -> well_nested L -> variables L = seq 0 n -> fits env L ->
  indexed L -> Forall (covered n) (all_layers L) -> (bar = true \/ Forall dirac_free (all_layers L)) ->
  exists lls g ids, ll L (map env (seq 0 n)) = Some lls /\ length lls = number_of_nodes L /\ to_nx n bar L (mkGraph [] []) = Some (g, ids) /\ length ids = length lls /\
  forall r, r < length lls -> exists t, unfolds g (nth r ids 0) t /\ nth r lls NaN = nlog (density env t).
Proof.
  intros H1 H2 H3 H4 H5 H6 H7 H8. destruct (C54_to_nx_partial n bar L H1 H6 H7 H8) as (g & ids & E & _ & Hl & U).
  destruct (C51_columns_partial L env n) as (lls & E1 & Hll & H); auto. exists lls, g, ids. split; [exact E1|]. split; [exact Hll|]. split; [exact E|]. split; [congruence|].
  intros r Hr. rewrite Hll in Hr. exists (tree L r). split; [now apply U|now apply H].
Qed.

(** A circuit over a variable that it is given no variable for is not written. *)
Theorem C54_unknown_variable n bar L v : In v (variables L) -> n <= v -> circuit_to_nx n bar L = None.
Proof.
  intros Hv Hn. unfold circuit_to_nx. assert (E : forallb (fun v => v <? n) (variables L) = false).
  { apply not_true_is_false. intros F. rewrite forallb_forall in F. specialize (F v Hv). apply Nat.ltb_lt in F. lia. }
  destruct L; cbn [to_nx]; rewrite E; reflexivity.
Qed.

(** The written circuit is the one of the theorems above. *)
Theorem C54_circuit_partial n bar L : sound L -> indexed L -> Forall (covered n) (all_layers L) -> (bar = true \/ Forall dirac_free (all_layers L)) ->
  exists g ids, circuit_to_nx n bar L = Some g /\ length ids = number_of_nodes L /\ forall r, r < number_of_nodes L -> unfolds g (nth r ids 0) (tree L r).
Proof.
  intros H1 H2 H3 H4. destruct (C54_to_nx_partial n bar L H1 H2 H3 H4) as (g & ids & E & _ & Hl & U). exists g, ids. unfold circuit_to_nx. rewrite E. auto.
Qed.

(** ** Dense sum layers *)

(** The sparse matrix with an entry everywhere, holding the exponentials of the log weights. *)
Definition exponentials (w : dense) : sparse num :=
  mkSparse (d_rows w) (d_cols w) (concat (map (fun r => map (fun c => (r, c, nexp (d_at w r c))) (seq 0 (d_cols w))) (seq 0 (d_rows w)))).

(** A dense layer is written as if its log weights were the exponentials of its log weights. *)
Lemma dense_as_sparse n bar ws cs : to_nx n bar (LDense ws cs) = to_nx n bar (LSparse (map exponentials ws) cs).
Proof.
  cbn [to_nx]. assert (E1 : number_of_nodes (LSparse (map exponentials ws) cs) = number_of_nodes (LDense ws cs)) by (destruct ws; reflexivity).
  assert (E2 : map sparse_additions (map exponentials ws) = map dense_additions ws).
  { rewrite map_map. apply map_ext. intros w. unfold sparse_additions, exponentials, dense_additions. cbn [s_entries]. rewrite concat_map, map_map. f_equal. apply map_ext. intros r. rewrite map_map. reflexivity. }
  rewrite E1, E2. reflexivity.
Qed.

(** A dense node with weights 1 and 0 becomes a mixture with weights e/(e+1) and 1/(e+1). *)
Theorem C54_to_nx_refuted : ~ C54_to_nx_full.
Proof.
  intros H. set (w := mkDense 1 2 (fun _ c => if c =? 0 then Fin 0 else NInf)). set (c := LInput 0 (IUniform [(0, 1); (1, 2)]%R)).
  destruct (H 1 true (LDense [w] [c])) as (g & ids & E & _ & U).
  - cbn [sound]. split; [discriminate|]. split; [repeat constructor|]. split; [|cbn; auto]. split; [repeat constructor|]. split.
    + intros r _. unfold total_weight. cbn. rewrite exp_0. lra.
    + intros r _. repeat constructor; cbn; lia.
  - repeat constructor.
  - rewrite dense_as_sparse in E. destruct (C54_to_nx_partial 1 true (LSparse (map exponentials [w]) [c])) as (g' & ids' & E' & _ & _ & U').
    + cbn [sound map]. split; [discriminate|]. split; [repeat constructor|]. split; [cbn; lia|]. split; [|cbn; auto]. split; [repeat constructor|]. split.
      * intros [|r] Hr; [|cbn in Hr; lia]. unfold total_weight. cbn. rewrite exp_0. pose proof (exp_pos 1). lra.
      * intros [|r] Hr; [|cbn in Hr; lia]. repeat constructor; cbn; lia.
    + cbn. split; [|auto]. repeat constructor; cbn; intuition discriminate.
    + repeat constructor.
    + now left.
    + rewrite E in E'. inversion E'; subst g' ids'. specialize (U 0 ltac:(cbn; lia)). specialize (U' 0 ltac:(cbn; lia)). pose proof (unfolds_det _ _ _ U _ U') as X. cbn -[nlog] in X. unfold sum_tree, weighted, total_weight in X. cbn -[nlog] in X. rewrite exp_0 in X.
      pose proof (f_equal (fun t => match t with PSum (_ :: (x, _) :: _) => x | _ => NaN end) X) as X2. cbn -[nlog] in X2. clear -X2. pose proof (exp_pos 1). replace (0 / (1 + (0 + 0)))%R with 0%R in X2 by field. rewrite (nlog_Fin_pos (1 / _)) in X2 by (apply Rdiv_lt_0_compat; lra). cbn in X2. destruct (total_order_T 0 0) as [[Y|Y]|Y]; try lra. discriminate X2.
Qed.

(** The witness in numbers: the layer gives the second interval density 0, its networkx circuit 1/(e+1). *)
Example C54_dense_weights :
  let L := LDense [mkDense 1 2 (fun _ c => if c =? 0 then Fin 0 else NInf)] [LInput 0 (IUniform [(0, 1); (1, 2)]%R)] in
  exists g ids t, to_nx 1 true L (mkGraph [] []) = Some (g, ids) /\ unfolds g (nth 0 ids 0) t /\
  tree L 0 = PSum [(Fin 0, PLeaf (DUnif 0 (iopen 0 1))); (NInf, PLeaf (DUnif 0 (iopen 1 2)))] /\
  t = PSum [(nlog (Fin (exp 1 / (exp 1 + 1))), PLeaf (DUnif 0 (iopen 0 1))); (nlog (Fin (1 / (exp 1 + 1))), PLeaf (DUnif 0 (iopen 1 2)))].
Proof.
  intros L. destruct (C54_to_nx_partial 1 true (LSparse (map exponentials [mkDense 1 2 (fun _ c => if c =? 0 then Fin 0 else NInf)]) [LInput 0 (IUniform [(0, 1); (1, 2)]%R)])) as (g & ids & E & _ & _ & U).
  - cbn [sound map]. split; [discriminate|]. split; [repeat constructor|]. split; [cbn; lia|]. split; [|cbn; auto]. split; [repeat constructor|]. split.
    + intros [|r] Hr; [|cbn in Hr; lia]. unfold total_weight. cbn. rewrite exp_0. pose proof (exp_pos 1). lra.
    + intros [|r] Hr; [|cbn in Hr; lia]. repeat constructor; cbn; lia.
  - cbn. split; [|auto]. repeat constructor; cbn; intuition discriminate.
  - repeat constructor.
  - now left.
  - eexists g, ids, _. split; [unfold L; rewrite dense_as_sparse; exact E|]. split; [apply U; cbn; lia|]. split; cbn -[nlog]; unfold sum_tree, weighted, total_weight; cbn -[nlog]; rewrite exp_0; repeat f_equal.
    + replace (1 / (1 + (0 + 0)))%R with 1%R by field. rewrite nlog_Fin_pos, ln_1 by lra. reflexivity.
    + replace (0 / (1 + (0 + 0)))%R with 0%R by field. cbn. destruct (total_order_T 0 0) as [[Y|Y]|Y]; try lra. reflexivity.
    + ring.
    + ring.
Qed.

(** A sum over two products of a Gaussian and a discrete variable: the unit of the networkx circuit is the mixture with weights
    1/4 and 3/4, the probabilities of the discrete leaves are normalised. *)
Example C54_to_nx_case :
  let L := LSparse [mkSparse 1 2 [(0, 0, Fin 0); (0, 1, Fin (ln 3))]]
    [LProd (mkSparse 2 2 [(0, 0, 0); (0, 1, 1); (1, 0, 0); (1, 1, 0)]) [LInput 0 (IGauss [0; 5]%R [0; 0]%R [1; 1]%R); LInput 1 (IDiscrete [[Fin 0; Fin 0]])]] in
  exists g ids, to_nx 2 false L (mkGraph [] []) = Some (g, ids) /\
  let coin := PLeaf (DSym 1 [(0%Z, (1 / 2)%R); (1%Z, (1 / 2)%R)]) in
  unfolds g (nth 0 ids 0) (PSum [(nlog (Fin (1 / 4)), PProd [PLeaf (DGauss 0 0 2); coin]); (nlog (Fin (3 / 4)), PProd [PLeaf (DGauss 0 5 2); coin])]).
Proof.
  intros L. destruct (C54_to_nx_partial 2 false L) as (g & ids & E & _ & _ & U).
  - cbn [sound L]. split; [discriminate|]. split; [repeat constructor|]. split; [cbn; lia|]. split; [split; [repeat constructor|split]|].
    + intros [|r] Hr; [|cbn in Hr; lia]. unfold total_weight. cbn. rewrite exp_0, exp_ln by lra. lra.
    + intros [|r] Hr; [|cbn in Hr; lia]. repeat constructor; cbn; lia.
    + cbn. split; [|exact I]. split; [reflexivity|]. split; [|split; [auto|split; [|exact I]]].
      * intros e d He Hd. repeat (destruct He as [<-|He]; [cbn in Hd; inversion Hd; cbn; lia|]). destruct He.
      * intros row [<-|[]]. split; [repeat constructor|]. cbn. rewrite exp_0. lra.
  - cbn. split; [repeat constructor; cbn; intuition discriminate|]. split; [|exact I]. split; [repeat constructor; cbn; intuition discriminate|]. split; [repeat constructor; cbn; lia|]. split; [|auto]. intros e He. repeat (destruct He as [<-|He]; [cbn; lia|]). destruct He.
  - repeat constructor.
  - right. repeat constructor.
  - exists g, ids. split; [exact E|]. cbv zeta. specialize (U 0 ltac:(cbn; lia)).
    match goal with |- unfolds _ _ ?t => replace t with (tree L 0); [exact U|] end.
    cbn -[nlog]. unfold sum_tree, weighted, total_weight, prod_tree, softmax. cbn -[nlog]. rewrite exp_0, exp_ln by lra.
    replace (1 + 1)%R with 2%R by ring. replace (1 / (1 + (3 + 0)))%R with (1 / 4)%R by field. replace (3 / (1 + (3 + 0)))%R with (3 / 4)%R by field. replace (1 / (1 + (1 + 0)))%R with (1 / 2)%R by field. reflexivity.
Qed.

Print Assumptions C54_to_nx_partial.
Print Assumptions C54_to_nx_likelihood_partial.
Print Assumptions C54_to_nx_refuted.
Print Assumptions C54_unknown_variable.
Print Assumptions C54_circuit_partial.
