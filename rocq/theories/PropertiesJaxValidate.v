(** * Property C92: layers that pass validation can be evaluated *)
From Coq Require Import List Arith Bool Lia ZArith Reals Lra.
From Verif Require Import Num Graph Circuit SpecFacts EvalFacts Interval Dist JaxLayer JaxSpec JaxLayerFacts JaxMeaning.
Import ListNotations.
Local Set Bullet Behavior "Strict Subproofs".
Local Open Scope nat_scope.

(** ** Specification *)

(** All layers of the circuit pass their validation. *)
Definition validated (L : layer) : Prop := forall l, In l (all_layers L) -> validate l = true.

(** What validation does not look at: there is something to take the maximum of, and matrices do not refer to nodes that do not exist. *)
Fixpoint filled (L : layer) : Prop :=
  match L with
  | LInput _ (IDiscrete ps) => forall row, In row ps -> row <> []
  | LInput _ _ => True
  | LSparse ws cs => (exists w, In w ws /\ s_entries w <> []) /\ (forall w e, In w ws -> In e (s_entries w) -> snd (fst e) < s_cols w) /\ fold_right and True (map filled cs)
  | LDense _ cs => fold_right and True (map filled cs)
  | LProd edges cs => (forall e c, In e (s_entries edges) -> nth_error cs (fst (fst e)) = Some c -> snd e < number_of_nodes c) /\ fold_right and True (map filled cs)
  end.

(** A point with one entry per variable of the layer has one log-likelihood per node. *)
Definition evaluates (L : layer) : Prop := forall x, length x = length (variables L) -> exists v, ll L x = Some v /\ length v = number_of_nodes L.

Definition C92_full : Prop := forall L, validated L -> evaluates L.

(** ** Proof *)
Lemma add_at_length i v : forall l, length (add_at i v l) = length l.
Proof. induction i as [|i IH]; intros [|x l]; cbn; auto. Qed.

Lemma scatter_add_length us : forall l, length (scatter_add l us) = length l.
Proof. unfold scatter_add. induction us as [|u us IH]; intros l; cbn [fold_left]; [reflexivity|]. now rewrite IH, add_at_length. Qed.

Lemma gather_some {A} (l : list A) i : l <> [] -> exists a, gather l i = Some a.
Proof. intros H. unfold gather. destruct (nth_error l (min i (length l - 1))) as [a|] eqn:E; [eauto|]. apply nth_error_None in E. destruct l; [contradiction|cbn in E; lia]. Qed.

Lemma mapM_some {A B} (f : A -> option B) l : (forall a, In a l -> exists b, f a = Some b) -> exists bs, mapM f l = Some bs /\ length bs = length l.
Proof.
  unfold mapM. induction l as [|a l IH]; intros H; [exists []; auto|]. destruct (H a) as (b & Eb); [now left|]. destruct IH as (bs & E & L); [intros; apply H; now right|]. rewrite Eb, E. exists (b :: bs). cbn. auto.
Qed.

Lemma zip_some {A B C} (f : A -> B -> C) a b : length a = length b -> exists c, zip_with f a b = Some c /\ length c = length a.
Proof. intros H. unfold zip_with. rewrite H, Nat.eqb_refl. eexists. split; [reflexivity|]. rewrite map_length, combine_length, H. lia. Qed.

Lemma list_eqb_eq a : forall b, list_eqb a b = true -> a = b.
Proof.
  unfold list_eqb. induction a as [|x a IH]; intros [|y b] H; cbn in H; try discriminate; auto. apply andb_true_iff in H. destruct H as [H1 H2]. apply andb_true_iff in H2. destruct H2 as [H2 H3].
  apply Nat.eqb_eq in H2. subst y. f_equal. apply IH. now rewrite H1, H3.
Qed.

Lemma sparse_some ws : forall cs result, (forall w c, In (w, c) (combine ws cs) -> exists lls, c = Some lls /\ forall e, In e (s_entries w) -> snd (fst e) < length lls) ->
  exists r, sparse_loop ws cs result = Some r /\ length r = length result.
Proof.
  induction ws as [|w ws IH]; intros cs result H; cbn [sparse_loop]; [eauto|]. destruct cs as [|c cs]; [eauto|]. destruct (H w c) as (lls & -> & He); [now left|].
  destruct (mapM_some (fun e => match gather lls (snd (fst e)) with None => None | Some l => Some (fst (fst e), nexp (nadd (snd e) l)) end) (s_entries w)) as (us & Eu & _).
  - intros e Hin. specialize (He e Hin). destruct (gather_some lls (snd (fst e))) as (l & ->); [intros ->; cbn in He; lia|]. eauto.
  - unfold sparse_updates. rewrite Eu. destruct (IH cs (scatter_add result us)) as (r & Er & Lr); [intros; apply H; now right|]. exists r. split; [exact Er|]. now rewrite Lr, scatter_add_length.
Qed.

Lemma dense_some n ws : forall cs result, (forall w c, In (w, c) (combine ws cs) -> d_rows w = n /\ exists lls, c = Some lls /\ length lls = d_cols w) -> length result = n ->
  exists r, dense_loop ws cs result = Some r /\ length r = n.
Proof.
  induction ws as [|w ws IH]; intros cs result H L; cbn [dense_loop]; [eauto|]. destruct cs as [|c cs]; [eauto|]. destruct (H w c) as (Hn & lls & -> & He); [now left|].
  unfold dense_part. rewrite He, Nat.eqb_refl. destruct (zip_some nadd result (map (fun r => nexp (logsumexp (map (fun xl => nadd (fst xl) (snd xl)) (combine (dense_row w r) lls)))) (seq 0 (d_rows w)))) as (r & Er & Lr).
  - rewrite map_length, seq_length. congruence.
  - rewrite Er. apply IH; [intros; apply H; now right|congruence].
Qed.

Lemma prod_some edges : forall cs r result, (forall k c, nth_error cs k = Some c -> exists lls, c = Some lls /\ forall e, In e (s_entries edges) -> fst (fst e) = r + k -> snd e < length lls) ->
  exists v, prod_loop edges r cs result = Some v /\ length v = length result.
Proof.
  induction cs as [|c cs IH]; intros r result H; cbn [prod_loop]; [eauto|]. destruct (r <? s_rows edges); [|eauto]. destruct (H 0 c eq_refl) as (lls & -> & He).
  destruct (mapM_some (fun nc => match gather lls (snd nc) with None => None | Some l => Some (fst nc, l) end) (edge_row edges r)) as (us & Eu & _).
  - intros nc Hin. unfold edge_row in Hin. apply in_map_iff in Hin. destruct Hin as (e & <- & Hin). apply filter_In in Hin. destruct Hin as [Hin Hr]. apply Nat.eqb_eq in Hr. cbn [fst snd].
    destruct (gather_some lls (snd e)) as (l & ->); [intros ->; specialize (He e Hin); cbn in He; lia|]. eauto.
  - rewrite Eu. destruct (IH (S r) (scatter_add result us)) as (v & Ev & Lv); [|exists v; split; [exact Ev|]; now rewrite Lv, scatter_add_length].
    intros k c Hk. destruct (H (S k) c Hk) as (lls' & -> & He'). exists lls'. split; [reflexivity|]. intros e Hin Hr. apply He'; [exact Hin|lia].
Qed.

Lemma combine_child {A} (ws : list A) cs (f : layer -> option (list num)) w c : In (w, c) (combine ws (map f cs)) -> exists c', In (w, c') (combine ws cs) /\ c = f c'.
Proof. rewrite combine_map_r. intros H. apply in_map_iff in H. destruct H as ([w' c'] & E & H). cbn [fst snd] in E. injection E as <- <-. eauto. Qed.

Lemma below_validated L cs : validated L -> all_layers L = L :: concat (map all_layers cs) -> forall c, In c cs -> validated c.
Proof. intros H E c Hc l Hl. apply H. rewrite E. right. apply in_concat. exists (all_layers c). split; [now apply in_map|exact Hl]. Qed.

Lemma log_constants_length n ws : (exists w, In w ws /\ s_entries w <> []) -> exists z, sparse_log_constants n ws = Some z /\ length z = n.
Proof.
  intros (w & Hw & He). unfold sparse_log_constants, maximum, all_entries. destruct (map snd (concat (map s_entries ws))) as [|x l] eqn:E.
  - exfalso. apply map_eq_nil in E. destruct (s_entries w) as [|e es] eqn:Ew; [contradiction|]. assert (X : In e (concat (map s_entries ws))) by (apply in_concat; exists (s_entries w); split; [now apply in_map|rewrite Ew; now left]). rewrite E in X. destruct X.
  - eexists. split; [reflexivity|]. now rewrite map_length, scatter_add_length, repeat_length.
Qed.

Theorem C92_validated_partial L : validated L -> filled L -> evaluates L.
Proof.
  induction L as [v i|ws cs IH|ws cs IH|edges cs IH] using layer_ind'; intros V F x Hx.
  - cbn [variables] in Hx. destruct x as [|a [|b x]]; try discriminate Hx. cbn [ll]. specialize (V _ (or_introl eq_refl)). destruct i as [loc ls ms|ps|is|loc cap]; cbn [validate input_ll number_of_nodes input_nodes filled] in *.
    + apply andb_true_iff in V. destruct V as [V _]. apply andb_true_iff in V. destruct V as [V1 V2]. apply Nat.eqb_eq in V1, V2. unfold scales. destruct (zip_some (fun l m => (exp l + m)%R) ls ms) as (sc & -> & Ls); [congruence|]. apply zip_some. congruence.
    + apply mapM_some. intros row Hr. apply gather_some. unfold normalized_log_probabilities. intros X. apply map_eq_nil in X. exact (F row Hr X).
    + eexists. split; [reflexivity|]. apply map_length.
    + apply zip_some. now apply Nat.eqb_eq.
  - pose proof (below_validated _ cs V eq_refl) as Vc. specialize (V _ (or_introl eq_refl)). cbn [validate] in V. apply andb_true_iff in V. destruct V as [V V3]. apply andb_true_iff in V. destruct V as [V1 V2].
    destruct F as (F1 & F2 & F3). apply fold_and_Forall in F3. rewrite Forall_forall in IH, F3. rewrite forallb_forall in V3. destruct ws as [|w0 ws]; [discriminate|]. cbn [ll]. unfold sparse_ll.
    destruct (sparse_some (w0 :: ws) (map (fun c => ll c x) cs) (repeat (Fin 0) (s_rows w0))) as (r & Er & Lr).
    + intros w c Hin. apply combine_child in Hin. destruct Hin as (c' & Hin & ->). specialize (V3 _ Hin). cbn [fst snd] in V3. apply andb_true_iff in V3. destruct V3 as [V3 V4]. apply Nat.eqb_eq in V3. apply list_eqb_eq in V4.
      assert (Hc : In c' cs) by (eapply in_combine_r; eauto). destruct (IH c' Hc (Vc c' Hc) (F3 c' Hc) x) as (lls & El & Ll); [congruence|]. exists lls. split; [exact El|]. intros e He. rewrite Ll, <- V3. apply F2; [|exact He]. eapply in_combine_l; eauto.
    + rewrite Er. destruct (log_constants_length (s_rows w0) (w0 :: ws) F1) as (z & -> & Lz). cbn [number_of_nodes]. destruct (zip_some (fun r z => nsub (nlog r) z) r z) as (v & Ev & Lv); [rewrite Lr, repeat_length; congruence|]. exists v. split; [exact Ev|]. now rewrite Lv, Lr, repeat_length.
  - pose proof (below_validated _ cs V eq_refl) as Vc. specialize (V _ (or_introl eq_refl)). cbn [validate] in V. apply andb_true_iff in V. destruct V as [V V3]. apply andb_true_iff in V. destruct V as [V1 V2].
    cbn [filled] in F. apply fold_and_Forall in F. rewrite Forall_forall in IH, F. rewrite forallb_forall in V2, V3. destruct ws as [|w0 ws]; [discriminate|]. cbn [ll]. unfold dense_ll. cbn [number_of_nodes] in *.
    destruct (dense_some (d_rows w0) (w0 :: ws) (map (fun c => ll c x) cs) (repeat (Fin 0) (d_rows w0))) as (r & Er & Lr).
    + intros w c Hin. split; [apply Nat.eqb_eq, V2; eapply in_combine_l; eauto|]. apply combine_child in Hin. destruct Hin as (c' & Hin & ->). specialize (V3 _ Hin). cbn [fst snd] in V3. apply andb_true_iff in V3. destruct V3 as [V3 V4]. apply Nat.eqb_eq in V3. apply list_eqb_eq in V4.
      assert (Hc : In c' cs) by (eapply in_combine_r; eauto). destruct (IH c' Hc (Vc c' Hc) (F c' Hc) x) as (lls & El & Ll); [congruence|]. exists lls. split; [exact El|congruence].
    + apply repeat_length.
    + rewrite Er. destruct (zip_some (fun r z => nsub (nlog r) z) r (dense_log_constants (d_rows w0) (w0 :: ws))) as (v & Ev & Lv); [unfold dense_log_constants; rewrite map_length, seq_length; congruence|]. exists v. split; [exact Ev|congruence].
  - pose proof (below_validated _ cs V eq_refl) as Vc. destruct F as (F1 & F3). apply fold_and_Forall in F3. rewrite Forall_forall in IH, F3. cbn [ll].
    destruct (prod_some edges (map (fun c => match select x (variables c) with None => None | Some x' => ll c x' end) cs) 0 (repeat (Fin 0) (s_cols edges))) as (v & Ev & Lv).
    + intros k o Hk. rewrite nth_error_map in Hk. destruct (nth_error cs k) as [c|] eqn:Ek; [|discriminate]. injection Hk as <-. assert (Hc : In c cs) by (eapply nth_error_In; eauto).
      destruct (mapM_some (gather x) (variables c)) as (x' & Ex & Lx).
      * intros w Hw. apply gather_some. intros ->. cbn [variables length] in Hx. assert (X : In w (sset_of (concat (map variables cs)))) by (apply sset_of_In, in_concat; exists (variables c); split; [now apply in_map|exact Hw]).
        destruct (sset_of (concat (map variables cs))); [destruct X|discriminate].
      * unfold select. rewrite Ex. destruct (IH c Hc (Vc c Hc) (F3 c Hc) x' Lx) as (lls & El & Ll). exists lls. split; [exact El|]. intros e He Hr. rewrite Ll. apply (F1 e c He). now rewrite Hr.
    + exists v. split; [exact Ev|]. rewrite Lv. apply repeat_length.
Qed.
Print Assumptions C92_validated_partial.

(** Validation of a product layer: no edge is lost, since every row of the matrix belongs to a child layer and every child layer to a row. *)
Theorem C92_edges edges cs : validated (LProd edges cs) -> (forall e, In e (s_entries edges) -> fst (fst e) < s_rows edges) ->
  (forall e, In e (s_entries edges) -> exists c, nth_error cs (fst (fst e)) = Some c) /\ forall i c, nth_error cs i = Some c -> i < s_rows edges.
Proof.
  intros V H. specialize (V _ (or_introl eq_refl)). cbn [validate] in V. apply Nat.eqb_eq in V. split.
  - intros e He. specialize (H e He). destruct (nth_error cs (fst (fst e))) as [c|] eqn:E; [eauto|]. apply nth_error_None in E. lia.
  - intros i c Hi. rewrite V. apply nth_error_Some. congruence.
Qed.
Print Assumptions C92_edges.

(** A sparse sum layer without edges passes, but the maximum of no weights does not exist. *)
Theorem C92_refuted : ~ C92_full.
Proof.
  intros F. destruct (F (LSparse [mkSparse 1 1 []] [LInput 0 (IUniform [(0%R, 1%R)])])) with (x := [0%R]) as (v & E & _).
  - intros l [<-|[<-|[]]]; reflexivity.
  - reflexivity.
  - discriminate E.
Qed.
Print Assumptions C92_refuted.

(** A mixture of two products of two layers. *)
Definition table : layer := LDense [mkDense 1 2 (fun _ _ => Fin 0)] [LProd (mkSparse 2 2 [(0, 0, 0); (0, 1, 1); (1, 0, 0); (1, 1, 0)]) [LInput 3 (IDirac [1%R; 2%R] [Fin 1; Fin 1]); LInput 5 (IUniform [(0%R, 1%R)])]].

Example C92_case : validated table /\ filled table /\ exists v, ll table [1%R; 0%R] = Some [v].
Proof.
  assert (V : validated table) by (intros l [<-|[<-|[<-|[<-|[]]]]]; reflexivity).
  assert (F : filled table).
  { cbn. repeat split. intros e c [<-|[<-|[<-|[<-|[]]]]] E; cbn in E; injection E as <-; cbn; lia. }
  split; [exact V|]. split; [exact F|]. destruct (C92_validated_partial table V F [1%R; 0%R] eq_refl) as (v & E & L). destruct v as [|v [|w l]]; try discriminate L. eauto.
Qed.

Example C92_edges_case : forall e, In e [(0, 0, 0); (0, 1, 1); (1, 0, 0); (1, 1, 0)] -> exists c, nth_error [LInput 3 (IDirac [1%R; 2%R] [Fin 1; Fin 1]); LInput 5 (IUniform [(0%R, 1%R)])] (fst (fst e)) = Some c.
Proof.
  apply (C92_edges (mkSparse 2 2 [(0, 0, 0); (0, 1, 1); (1, 0, 0); (1, 1, 0)])).
  - intros l [<-|[<-|[<-|[]]]]; reflexivity.
  - intros e [<-|[<-|[<-|[<-|[]]]]]; cbn; lia.
Qed.
