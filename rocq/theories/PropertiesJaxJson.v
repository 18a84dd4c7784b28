(** * Layered circuits survive JSON (C78) *)
From Coq Require Import List Arith Bool Lia Sorted Reals ZArith String.
From Verif Require Import Num Graph Circuit EvalFacts Dist JaxLayer JaxMeaning PropertiesJptParams Copy JaxJson.
Import ListNotations.
Local Set Bullet Behavior "Strict Subproofs".
Local Open Scope string_scope.
Local Open Scope nat_scope.

(** ** Specification *)

(** What a layer is made of are arrays: the rows of a matrix have one length, the weights of a dense sum layer have one number of
    rows, and there is no product layer without child layers, since its constructor raises. *)
Definition shaped (L : layer) : Prop :=
  match L with
  | LInput _ (IDiscrete ps) => forall r r', In r ps -> In r' ps -> List.length r = List.length r'
  | LDense ws _ => forall w w', In w ws -> In w' ws -> d_rows w = d_rows w'
  | LProd _ cs => cs <> []
  | _ => True
  end.

(** Two layers that nobody can tell apart by asking. *)
Definition same_layer (L L' : layer) : Prop :=
  number_of_nodes L' = number_of_nodes L /\ variables L' = variables L /\ validate L' = validate L /\ (forall x, ll L' x = ll L x) /\
  layer_to_json L' = layer_to_json L.

Definition C78_full : Prop := forall vars L, StronglySorted lt vars -> Forall shaped (all_layers L) ->
  exists L', jax_circuit_of_json (jax_circuit_to_json vars L) = Some (vars, L') /\ same_layer L L'.

(** No array is empty where its shape matters. *)
Definition filled (L : layer) : Prop :=
  match L with
  | LInput _ (IDiscrete ps) => ps <> []
  | LInput _ (IUniform is) => is <> []
  | LInput _ _ => True
  | LSparse ws _ => Forall (fun w => s_entries w <> []) ws
  | LDense ws _ => Forall (fun w => d_rows w <> 0) ws
  | LProd edges _ => s_entries edges <> []
  end.

Definition is_dense (L : layer) : Prop := match L with LDense _ _ => True | _ => False end.

(** ** Arrays *)
Lemma mapM_map_id {A B} (f : A -> B) (h : B -> option A) l : (forall a, In a l -> h (f a) = Some a) -> mapM h (map f l) = Some l.
Proof. induction l as [|a l IH]; intros H; cbn; [reflexivity|]. rewrite H by now left. rewrite IH; auto. intros b Hb. apply H. now right. Qed.

Lemma nat_json n : nat_of_json (nat_to_json n) = Some n.
Proof. unfold nat_of_json, nat_to_json. now rewrite Nat2Z.id. Qed.
Lemma vec_json l : vec_of_json (vec_to_json l) = Some l.
Proof. unfold vec_of_json, vec_to_json. now apply mapM_map_id. Qed.
Lemma reals_json l : reals_of_json (reals_to_json l) = Some l.
Proof. unfold reals_of_json, reals_to_json. now apply mapM_map_id. Qed.

Lemma rectangular_spec {A} (rows : list (list A)) : (forall r r', In r rows -> In r' rows -> List.length r = List.length r') -> rectangular rows = negb (List.length rows =? 0).
Proof.
  destruct rows as [|r rows]; intros H; [reflexivity|]. cbn [rectangular]. cbn [List.length Nat.eqb negb]. apply forallb_forall. intros r' Hr. apply Nat.eqb_eq. apply H; [exact Hr|now left].
Qed.
Lemma mat_json rows : (forall r r', In r rows -> In r' rows -> List.length r = List.length r') -> mat_of_json (mat_to_json rows) = if List.length rows =? 0 then None else Some rows.
Proof.
  intros H. unfold mat_of_json, mat_to_json. rewrite (mapM_map_id vec_to_json vec_of_json) by (intros; apply vec_json). rewrite rectangular_spec by exact H. now destruct (List.length rows =? 0).
Qed.
Lemma intervals_json is : intervals_of_json (intervals_to_json is) = if List.length is =? 0 then None else Some is.
Proof.
  unfold intervals_of_json, intervals_to_json. destruct is as [|[a b] is]; [reflexivity|].
  transitivity (mapM (fun r => match r with JArr [JNum (Fin a); JNum (Fin b)] => Some (a, b) | _ => None end) (map (fun ab => JArr [JNum (Fin (fst ab)); JNum (Fin (snd ab))]) ((a, b) :: is))); [reflexivity|].
  rewrite mapM_map_id; [reflexivity|]. now intros [c d] _.
Qed.

(** A dense matrix as it is read: nothing outside its shape. *)
Definition trimmed (w : dense) : dense :=
  mkDense (d_rows w) (d_cols w) (fun r c => if (r <? d_rows w) && (c <? d_cols w) then d_at w r c else NaN).
Lemma dense_row_len w r : List.length (dense_row w r) = d_cols w.
Proof. unfold dense_row. now rewrite map_length, seq_length. Qed.
Lemma nth_seq_map {A} (f : nat -> A) n i d : nth i (map f (seq 0 n)) d = if i <? n then f i else d.
Proof.
  destruct (Nat.ltb_spec i n) as [H|H].
  - rewrite nth_indep with (d' := f 0) by now rewrite map_length, seq_length. rewrite map_nth, seq_nth by lia. reflexivity.
  - apply nth_overflow. now rewrite map_length, seq_length.
Qed.
From Coq Require Import FunctionalExtensionality.
Lemma dense_json w : dense_of_json (dense_to_json w) = if d_rows w =? 0 then None else Some (trimmed w).
Proof.
  unfold dense_of_json, dense_to_json. rewrite mat_json.
  - rewrite map_length, seq_length. destruct (d_rows w =? 0) eqn:E; [reflexivity|]. apply Nat.eqb_neq in E. unfold trimmed. rewrite map_length, seq_length. f_equal. f_equal.
    + destruct (d_rows w) as [|n]; [congruence|]. cbn [seq map hd]. apply dense_row_len.
    + extensionality r. extensionality c. rewrite nth_seq_map. destruct (r <? d_rows w); cbn [andb].
      * unfold dense_row. rewrite nth_seq_map. reflexivity.
      * now destruct c.
  - intros r r' H1 H2. apply in_map_iff in H1 as (x & <- & _). apply in_map_iff in H2 as (y & <- & _). now rewrite !dense_row_len.
Qed.

Lemma bcoo_json {A} (f : A -> json) (h : json -> option A) w : (forall a, h (f a) = Some a) ->
  bcoo_of_json h (bcoo_to_json f w) = if List.length (s_entries w) =? 0 then None else Some w.
Proof.
  intros H. destruct w as [rows cols es]. unfold bcoo_of_json, bcoo_to_json. cbn [s_rows s_cols s_entries].
  assert (E1 : mapM h (map (fun e : nat * nat * A => f (snd e)) es) = Some (map snd es)).
  { rewrite <- (map_map snd f). apply mapM_map_id. auto. }
  assert (E2 : mapM index_of_json (map (fun e : nat * nat * A => JArr [nat_to_json (fst (fst e)); nat_to_json (snd (fst e))]) es) = Some (map fst es)).
  { rewrite <- (map_map fst (fun i => JArr [nat_to_json (fst i); nat_to_json (snd i)])). apply mapM_map_id. intros [r c] _. unfold index_of_json. cbn [fst snd]. now rewrite !nat_json. }
  rewrite E1, E2, !nat_json, !map_length, Nat.eqb_refl, andb_true_r. destruct (List.length es =? 0); [reflexivity|]. cbn [negb]. do 2 f_equal.
  clear. induction es as [|[i a] es IH]; cbn; [reflexivity|]. now rewrite IH.
Qed.

(** ** Layers *)
Fixpoint reread (L : layer) : layer :=
  match L with
  | LInput v i => LInput v i
  | LSparse ws cs => LSparse ws (map reread cs)
  | LDense ws cs => LDense (map trimmed ws) (map reread cs)
  | LProd edges cs => LProd edges (map reread cs)
  end.

Lemma mapM_all {A B C} (f : A -> B) (h : B -> option C) (k : A -> C) (ok : A -> bool) l : (forall a, In a l -> h (f a) = if ok a then Some (k a) else None) ->
  mapM h (map f l) = if forallb ok l then Some (map k l) else None.
Proof.
  induction l as [|a l IH]; intros H; cbn; [reflexivity|]. rewrite H by now left. destruct (ok a); cbn; [|reflexivity]. rewrite IH by (intros; apply H; now right). now destruct (forallb ok l).
Qed.

Definition is_nil {A} (l : list A) : bool := List.length l =? 0.
Fixpoint readable (L : layer) : bool :=
  match L with
  | LInput _ (IDiscrete ps) => negb (is_nil ps)
  | LInput _ (IUniform is) => negb (is_nil is)
  | LInput _ _ => true
  | LSparse ws cs => forallb (fun w => negb (is_nil (s_entries w))) ws && forallb readable cs
  | LDense ws cs => forallb (fun w => negb (d_rows w =? 0)) ws && forallb readable cs
  | LProd edges cs => negb (is_nil (s_entries edges)) && forallb readable cs
  end.

Lemma all_children {A} (P : A -> Prop) (h : layer -> list A) cs : Forall P (List.concat (map h cs)) <-> Forall (fun c => Forall P (h c)) cs.
Proof.
  induction cs as [|c cs IH]; cbn; split; intros H; auto.
  - apply Forall_app in H as [H1 H2]. constructor; auto. now apply IH.
  - inversion H; subst. apply Forall_app. split; auto. now apply IH.
Qed.

Lemma negb_nil {A} (l : list A) : negb (is_nil l) = true <-> l <> [].
Proof. unfold is_nil. destruct l; cbn; split; congruence. Qed.

Lemma readable_filled L : readable L = true <-> Forall filled (all_layers L).
Proof.
  induction L as [v i|ws cs IH|ws cs IH|edges cs IH] using layer_ind'.
  - cbn [readable all_layers]. rewrite Forall_cons_iff. cbn [filled]. destruct i; try rewrite negb_nil; intuition.
  - cbn [readable all_layers]. rewrite Forall_cons_iff, all_children, andb_true_iff. cbn [filled]. rewrite !forallb_forall, !Forall_forall. rewrite Forall_forall in IH.
    split; intros [H1 H2]; (split; [intros w Hw; apply negb_nil; auto|intros c Hc; apply (IH c Hc); auto]).
  - cbn [readable all_layers]. rewrite Forall_cons_iff, all_children, andb_true_iff. cbn [filled]. rewrite !forallb_forall, !Forall_forall. rewrite Forall_forall in IH.
    split; intros [H1 H2]; (split; [intros w Hw; specialize (H1 w Hw)|intros c Hc; apply (IH c Hc); auto]); destruct (Nat.eqb_spec (d_rows w) 0); cbn in *; congruence.
  - cbn [readable all_layers]. rewrite Forall_cons_iff, all_children, andb_true_iff, negb_nil. cbn [filled]. rewrite !forallb_forall, !Forall_forall. rewrite Forall_forall in IH.
    split; intros [H1 H2]; (split; [exact H1|intros c Hc; apply (IH c Hc); auto]).
Qed.

Lemma layer_json L : Forall shaped (all_layers L) -> layer_of_json (layer_to_json L) = if readable L then Some (reread L) else None.
Proof.
  induction L as [v i|ws cs IH|ws cs IH|edges cs IH] using layer_ind'; intros HS.
  - inversion HS as [|? ? H1 _]; subst. destruct i as [loc ls ms|ps|is|loc cap]; cbn -[nat_of_json nat_to_json reals_of_json reals_to_json mat_of_json mat_to_json vec_of_json vec_to_json intervals_of_json intervals_to_json];
      unfold input_of_json; cbn -[nat_of_json nat_to_json reals_of_json reals_to_json mat_of_json mat_to_json vec_of_json vec_to_json intervals_of_json intervals_to_json]; rewrite nat_json; cbn -[nat_of_json nat_to_json reals_of_json reals_to_json mat_of_json mat_to_json vec_of_json vec_to_json intervals_of_json intervals_to_json].
    + now rewrite !reals_json.
    + rewrite mat_json by exact H1. unfold is_nil. now destruct (List.length ps =? 0).
    + rewrite intervals_json. unfold is_nil. now destruct (List.length is =? 0).
    + now rewrite reals_json, vec_json.
  - cbn [all_layers] in HS. apply Forall_cons_iff in HS as [H1 H2]. rewrite all_children in H2. rewrite Forall_forall in IH, H2.
    cbn -[bcoo_of_json bcoo_to_json forallb]. rewrite (mapM_all layer_to_json layer_of_json reread readable) by auto.
    destruct (forallb readable cs); [|now rewrite andb_false_r]. rewrite andb_true_r. cbn -[bcoo_of_json bcoo_to_json forallb].
    rewrite (mapM_all (bcoo_to_json JNum) (bcoo_of_json jnum) (fun w => w) (fun w => negb (is_nil (s_entries w)))).
    + destruct (forallb _ ws); cbn; now rewrite ?map_id.
    + intros w _. rewrite bcoo_json by reflexivity. unfold is_nil. now destruct (List.length (s_entries w) =? 0).
  - cbn [all_layers] in HS. apply Forall_cons_iff in HS as [H1 H2]. rewrite all_children in H2. rewrite Forall_forall in IH, H2.
    cbn -[dense_of_json dense_to_json forallb]. rewrite (mapM_all layer_to_json layer_of_json reread readable) by auto.
    destruct (forallb readable cs); [|now rewrite andb_false_r]. rewrite andb_true_r. cbn -[dense_of_json dense_to_json forallb].
    rewrite (mapM_all dense_to_json dense_of_json trimmed (fun w => negb (d_rows w =? 0))).
    + now destruct (forallb _ ws).
    + intros w _. rewrite dense_json. now destruct (d_rows w =? 0).
  - cbn [all_layers] in HS. apply Forall_cons_iff in HS as [H1 H2]. rewrite all_children in H2. rewrite Forall_forall in IH, H2. cbn [shaped] in H1.
    cbn -[bcoo_of_json bcoo_to_json forallb]. rewrite (mapM_all layer_to_json layer_of_json reread readable) by auto.
    destruct (forallb readable cs); [|now rewrite andb_false_r]. rewrite andb_true_r. cbn -[bcoo_of_json bcoo_to_json forallb].
    rewrite (bcoo_json nat_to_json nat_of_json) by apply nat_json. unfold is_nil. destruct (List.length (s_entries edges) =? 0); [reflexivity|]. cbn. rewrite map_length. destruct cs; [congruence|reflexivity].
Qed.

(** ** What is read answers the same *)
Lemma trimmed_row w r : r < d_rows w -> dense_row (trimmed w) r = dense_row w r.
Proof.
  intros H. unfold dense_row, trimmed. cbn [d_cols d_at]. apply map_ext_in. intros c Hc. apply in_seq in Hc. apply Nat.ltb_lt in H. rewrite H. replace (c <? d_cols w) with true; [reflexivity|]. symmetry. apply Nat.ltb_lt. lia.
Qed.

Lemma trimmed_part w child : dense_part (trimmed w) child = dense_part w child.
Proof.
  unfold dense_part. change (d_cols (trimmed w)) with (d_cols w). change (d_rows (trimmed w)) with (d_rows w). destruct (_ =? _); [|reflexivity]. f_equal. apply map_ext_in. intros r Hr. apply in_seq in Hr.
  rewrite trimmed_row by lia. reflexivity.
Qed.

Lemma dense_ll_trimmed ws children : (forall w w', In w ws -> In w' ws -> d_rows w = d_rows w') -> dense_ll (map trimmed ws) children = dense_ll ws children.
Proof.
  intros H. destruct ws as [|w ws]; [reflexivity|].
  assert (E1 : forall vs cs res, dense_loop (map trimmed vs) cs res = dense_loop vs cs res).
  { induction vs as [|v vs IH]; intros [|c cs] res; try reflexivity. cbn [map dense_loop]. destruct c as [lls|]; [|reflexivity]. rewrite trimmed_part. destruct (dense_part v lls) as [p|]; [|reflexivity]. destruct (zip_with nadd res p); auto. }
  assert (E2 : dense_log_constants (d_rows w) (map trimmed (w :: ws)) = dense_log_constants (d_rows w) (w :: ws)).
  { unfold dense_log_constants. apply map_ext_in. intros r Hr. apply in_seq in Hr. do 2 f_equal. rewrite map_map. apply map_ext_in. intros v Hv. apply trimmed_row. rewrite <- (H w v); [lia|now left|exact Hv]. }
  unfold dense_ll. cbn [map]. change (trimmed w :: map trimmed ws) with (map trimmed (w :: ws)). change (d_rows (trimmed w)) with (d_rows w). rewrite E1, E2. reflexivity.
Qed.

Lemma reread_variables L : variables (reread L) = variables L.
Proof.
  induction L as [v i|ws cs IH|ws cs IH|edges cs IH] using layer_ind'; [reflexivity| | |].
  - destruct cs as [|c cs]; [reflexivity|]. inversion IH; subst. assumption.
  - destruct cs as [|c cs]; [reflexivity|]. inversion IH; subst. assumption.
  - cbn [reread variables]. rewrite map_map. do 2 f_equal. apply map_ext_in. rewrite Forall_forall in IH. exact IH.
Qed.

Lemma reread_nodes L : number_of_nodes (reread L) = number_of_nodes L.
Proof. destruct L as [v i|ws cs|ws cs|edges cs]; try reflexivity. now destruct ws. Qed.

Lemma forallb_combine_map {A B C D} (f : A -> C) (h : B -> D) (p : C * D -> bool) (q : A * B -> bool) : (forall a b, p (f a, h b) = q (a, b)) ->
  forall l m, forallb p (combine (map f l) (map h m)) = forallb q (combine l m).
Proof. intros H. induction l as [|a l IH]; intros [|b m]; cbn; auto. now rewrite H, IH. Qed.

Lemma forallb_map_ext {A C} (f : A -> C) (p : C -> bool) (q : A -> bool) l : (forall a, p (f a) = q a) -> forallb p (map f l) = forallb q l.
Proof. intros H. induction l as [|a l IH]; cbn; auto. now rewrite H, IH. Qed.

Lemma reread_validate L : validate (reread L) = validate L.
Proof.
  destruct L as [v i|ws cs|ws cs|edges cs]; [reflexivity| | |].
  - unfold validate. change (reread (LSparse ws cs)) with (LSparse ws (map reread cs)). cbv iota.
    pose proof (reread_variables (LSparse ws cs)) as V. cbn [reread] in V. rewrite V. f_equal.
    pose proof (forallb_combine_map (fun w : sparse num => w) reread (fun wc => (s_cols (fst wc) =? number_of_nodes (snd wc)) && list_eqb (variables (snd wc)) (variables (LSparse ws cs))) (fun wc => (s_cols (fst wc) =? number_of_nodes (snd wc)) && list_eqb (variables (snd wc)) (variables (LSparse ws cs)))) as E.
    specialize (E ltac:(intros w c; cbn [fst snd]; now rewrite reread_nodes, reread_variables) ws cs). rewrite map_id in E. exact E.
  - unfold validate. change (reread (LDense ws cs)) with (LDense (map trimmed ws) (map reread cs)). cbv iota.
    pose proof (reread_variables (LDense ws cs)) as V. pose proof (reread_nodes (LDense ws cs)) as N. cbn [reread] in V, N. rewrite V, N, map_length. f_equal; [f_equal|].
    + now apply forallb_map_ext.
    + apply forallb_combine_map. intros w c. cbn [fst snd]. now rewrite reread_nodes, reread_variables.
  - cbn [reread validate]. now rewrite map_length.
Qed.

Lemma reread_ll L : Forall shaped (all_layers L) -> forall x, ll (reread L) x = ll L x.
Proof.
  induction L as [v i|ws cs IH|ws cs IH|edges cs IH] using layer_ind'; intros HS x; [reflexivity| | |];
    cbn [all_layers] in HS; apply Forall_cons_iff in HS as [H1 H2]; rewrite all_children in H2; rewrite Forall_forall in IH, H2; cbn [reread ll]; rewrite map_map.
  - f_equal. apply map_ext_in. auto.
  - rewrite dense_ll_trimmed by exact H1. f_equal. apply map_ext_in. auto.
  - f_equal. apply map_ext_in. intros c Hc. rewrite reread_variables. destruct (select x (variables c)); auto.
Qed.

Lemma trimmed_json w : dense_to_json (trimmed w) = dense_to_json w.
Proof.
  unfold dense_to_json. f_equal. change (d_rows (trimmed w)) with (d_rows w). apply map_ext_in. intros r Hr. apply in_seq in Hr. apply trimmed_row. lia.
Qed.
Lemma reread_json L : layer_to_json (reread L) = layer_to_json L.
Proof.
  induction L as [v i|ws cs IH|ws cs IH|edges cs IH] using layer_ind'; [reflexivity| | |]; rewrite Forall_forall in IH; cbn [reread layer_to_json]; rewrite map_map, (map_ext_in _ _ _ IH); try reflexivity.
  rewrite map_map, (map_ext _ _ trimmed_json). reflexivity.
Qed.

Lemma reread_id L : Forall (fun M => ~ is_dense M) (all_layers L) -> reread L = L.
Proof.
  induction L as [v i|ws cs IH|ws cs IH|edges cs IH] using layer_ind'; intros HS; [reflexivity| | |];
    cbn [all_layers] in HS; apply Forall_cons_iff in HS as [H1 H2]; rewrite all_children in H2; rewrite Forall_forall in IH, H2; cbn [reread].
  - f_equal. rewrite <- (map_id cs) at 2. apply map_ext_in. auto.
  - now destruct H1.
  - f_equal. rewrite <- (map_id cs) at 2. apply map_ext_in. auto.
Qed.

(** ** C78 *)
Lemma circuit_json vars L : StronglySorted lt vars -> Forall shaped (all_layers L) ->
  jax_circuit_of_json (jax_circuit_to_json vars L) = if readable L then Some (vars, reread L) else None.
Proof.
  intros HV HS. unfold jax_circuit_of_json, jax_circuit_to_json. cbn -[layer_of_json layer_to_json var_of_json var_to_json]. rewrite (mapM_map_id var_to_json var_of_json).
  - cbn -[layer_of_json layer_to_json]. rewrite layer_json by exact HS. destruct (readable L); [|reflexivity]. cbn. now rewrite sset_of_sorted_id.
  - intros v _. unfold var_of_json, var_to_json. now rewrite Nat2Z.id.
Qed.

(** Written and read again, a circuit without empty arrays has the same variables and answers every question as before. *)
Theorem C78_roundtrip_partial vars L : StronglySorted lt vars -> Forall shaped (all_layers L) -> Forall filled (all_layers L) ->
  exists L', jax_circuit_of_json (jax_circuit_to_json vars L) = Some (vars, L') /\ same_layer L L'.
Proof.
  intros HV HS HF. exists (reread L). rewrite circuit_json by assumption. apply readable_filled in HF. rewrite HF. split; [reflexivity|].
  unfold same_layer. rewrite reread_nodes, reread_variables, reread_validate, reread_json. repeat split. now apply reread_ll.
Qed.

(** It is the very same if there is no dense sum layer in it. *)
Theorem C78_identical_partial vars L : StronglySorted lt vars -> Forall shaped (all_layers L) -> Forall filled (all_layers L) ->
  Forall (fun M => ~ is_dense M) (all_layers L) -> jax_circuit_of_json (jax_circuit_to_json vars L) = Some (vars, L).
Proof.
  intros HV HS HF HD. rewrite circuit_json by assumption. apply readable_filled in HF. rewrite HF. now rewrite reread_id.
Qed.

(** Reading raises exactly if some array is empty. *)
Theorem C78_raises_exactly vars L : StronglySorted lt vars -> Forall shaped (all_layers L) ->
  (jax_circuit_of_json (jax_circuit_to_json vars L) <> None <-> Forall filled (all_layers L)).
Proof.
  intros HV HS. rewrite circuit_json by assumption. rewrite <- readable_filled. destruct (readable L); split; congruence.
Qed.

(** What is written tells circuits apart. *)
Theorem C78_injective_partial vars vars' L L' : StronglySorted lt vars -> StronglySorted lt vars' ->
  Forall shaped (all_layers L) -> Forall filled (all_layers L) -> Forall shaped (all_layers L') ->
  jax_circuit_to_json vars L = jax_circuit_to_json vars' L' -> vars = vars' /\ same_layer L L'.
Proof.
  intros HV HV' HS HF HS' E. pose proof (circuit_json vars L HV HS) as E1. pose proof (circuit_json vars' L' HV' HS') as E2. rewrite E in E1. rewrite E1 in E2.
  apply readable_filled in HF. rewrite HF in E2. destruct (readable L') eqn:R'; [|discriminate]. injection E2 as Ev El. split; [exact Ev|].
  unfold same_layer.
  rewrite <- (reread_nodes L), <- (reread_variables L), <- (reread_validate L), <- (reread_json L), El, reread_nodes, reread_variables, reread_validate, reread_json.
  repeat split. intros x. rewrite <- (reread_ll L HS), El. symmetry. now apply reread_ll.
Qed.

(** A sum layer over two child layers one of which is unused. *)
Definition unused : layer :=
  LSparse [mkSparse 1 1 [(0, 0, Fin 0)]; mkSparse 1 1 []] [LInput 0 (IUniform [(0%R, 1%R)]); LInput 0 (IUniform [(1%R, 2%R)])].

Theorem C78_refuted : ~ C78_full.
Proof.
  intros H. assert (HV : StronglySorted lt [0]) by (repeat constructor). assert (HS : Forall shaped (all_layers unused)) by (repeat constructor).
  destruct (H [0] unused HV HS) as (L' & E & _). rewrite circuit_json in E by assumption. discriminate.
Qed.

(** The refuting circuit is a proper one: it passes validation and is the uniform distribution on the unit interval. *)
Example C78_unused_valid : forallb validate (all_layers unused) = true.
Proof. reflexivity. Qed.

(** A Gaussian and a discrete variable, mixed by a dense sum layer. *)
Definition C78_example_layer : layer :=
  LDense [mkDense 1 2 (fun _ c => if c =? 0 then nlog (Fin (1/3)) else nlog (Fin (2/3)))]
    [LProd (mkSparse 2 2 [(0, 0, 0); (0, 1, 1); (1, 0, 1); (1, 1, 0)])
       [LInput 0 (IGauss [0; 1] [0; 1] [1/100; 1/100])%R; LInput 1 (IDiscrete [[Fin 0; NInf]; [NInf; Fin 0]])]].
Example C78_example : exists L', jax_circuit_of_json (jax_circuit_to_json [3; 7] C78_example_layer) = Some ([3; 7], L') /\ same_layer C78_example_layer L'.
Proof.
  apply C78_roundtrip_partial.
  - repeat constructor.
  - repeat constructor; cbn; try congruence.
    + intros w w' [<-|[]] [<-|[]]. reflexivity.
    + intros r r' [<-|[<-|[]]] [<-|[<-|[]]]; reflexivity.
  - repeat constructor; cbn; congruence.
Qed.
Example C78_example_raises : jax_circuit_of_json (jax_circuit_to_json [0] unused) = None.
Proof. rewrite circuit_json; [reflexivity|repeat constructor|repeat constructor]. Qed.

Print Assumptions C78_roundtrip_partial.
Print Assumptions C78_identical_partial.
Print Assumptions C78_raises_exactly.
Print Assumptions C78_injective_partial.
Print Assumptions C78_refuted.
