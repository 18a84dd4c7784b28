(** * JaxMeaning: layered circuits evaluate to what they mean *)
From Coq Require Import List Arith Bool Lia Reals Lra ZArith.
From Verif Require Import Num Graph Spec SpecFacts Circuit EvalFacts Interval Dist DistFacts TreeLocal NormalizeFacts Rename BayesNet PropertiesInteraction JaxLayer JaxLayerFacts JaxSpec.
Import ListNotations.
Local Set Bullet Behavior "Strict Subproofs".
Local Open Scope nat_scope.

Lemma layer_ind' (P : layer -> Prop) :
  (forall v i, P (LInput v i)) -> (forall ws cs, Forall P cs -> P (LSparse ws cs)) -> (forall ws cs, Forall P cs -> P (LDense ws cs)) ->
  (forall edges cs, Forall P cs -> P (LProd edges cs)) -> forall L, P L.
Proof.
  intros HI HS HD HP. fix IH 1. intros [v i|ws cs|ws cs|edges cs]; [apply HI|apply HS|apply HD|apply HP]; induction cs as [|c cs IHc]; constructor; auto.
Qed.

(** ** Mixtures *)
Lemma combine_map_r {A B C} (f : B -> C) (a : list A) (b : list B) : combine a (map f b) = map (fun xy => (fst xy, f (snd xy))) (combine a b).
Proof. revert b. induction a as [|x a IH]; intros [|y b]; cbn; auto. now rewrite IH. Qed.
Lemma combine_map_l {A B C} (f : A -> C) (a : list A) (b : list B) : combine (map f a) b = map (fun xy => (f (fst xy), snd xy)) (combine a b).
Proof. revert b. induction a as [|x a IH]; intros [|y b]; cbn; auto. now rewrite IH. Qed.

Lemma weighted_map {A B} (f : A -> B) parts (vals : list (nat -> A)) : weighted parts (map (fun g c => f (g c)) vals) = map (fun wv => (fst wv, f (snd wv))) (weighted parts vals).
Proof.
  unfold weighted. rewrite combine_map_r, map_map, concat_map. f_equal. rewrite map_map. apply map_ext. intros [p g]. cbn. rewrite map_map. reflexivity.
Qed.

Lemma weighted_fst {A} parts (vals : list (nat -> A)) : length vals = length parts -> map fst (weighted parts vals) = map snd (concat parts).
Proof.
  unfold weighted. revert vals. induction parts as [|p parts IH]; intros [|g vals] L; try discriminate; [reflexivity|]. cbn. rewrite !map_app, map_map. f_equal. apply IH. cbn in L. lia.
Qed.

Lemma ndiv_pos x d : (0 < d)%R -> ndiv x (Fin d) = nmul (Fin (/ d)) x.
Proof.
  intros H. pose proof (Rinv_0_lt_compat _ H). destruct x; cbn; auto.
  - destruct (Rlt_dec d 0); [lra|]. unfold nscale_inf. destruct (total_order_T (- / d) 0) as [[?|?]|?]; auto; lra.
  - destruct (Req_EM_T d 0); [lra|]. f_equal. unfold Rdiv. ring.
  - destruct (Rlt_dec d 0); [lra|]. unfold nscale_inf. destruct (total_order_T (/ d) 0) as [[?|?]|?]; auto; lra.
Qed.

Lemma wexp_nlog_weight w : (0 <= w)%R -> nexp (nlog (Fin w)) = Fin w.
Proof. intros H. apply nexp_nlog. exact H. Qed.

Lemma density_sum env parts children : (0 < total_weight parts)%R ->
  density env (sum_tree parts children) = mixture parts (map (fun t c => density env (t c)) children).
Proof.
  intros H. unfold density at 1. unfold sum_tree, mixture. cbn [semN]. rewrite map_map. cbn [fst snd]. rewrite (weighted_map (density env)), map_map. cbn [fst snd].
  rewrite ndiv_pos by exact H. rewrite nmul_sum_pos by now apply Rinv_0_lt_compat. f_equal. apply map_ext. intros [w t]. cbn [fst snd].
  pose proof (wexp_nonneg w). assert (0 <= wexp w / total_weight parts)%R. { apply Rmult_le_pos; [assumption|]. left. now apply Rinv_0_lt_compat. }
  rewrite wexp_nlog_weight by assumption. fold (density env t). rewrite nmul_assoc.
  - change (nmul (Fin ?a) (Fin ?b)) with (Fin (a * b)). f_equal. f_equal. unfold Rdiv. ring.
  - cbn. left. now apply Rinv_0_lt_compat.
  - cbn. assumption.
  - unfold density. clear. induction t as [d|l IH|l IH] using pc_ind'; cbn [semN].
    + apply nexp_nonneg.
    + apply nonneg_sum. apply Forall_map. eapply Forall_impl; [|exact IH]. intros wt Hw. apply nonneg_mul; [apply nexp_nonneg|exact Hw].
    + apply nonneg_prod. now apply Forall_map.
Qed.

(** ** Sparse sum layers *)
Lemma sparse_edges_row r w : sparse_edges r w = map (fun e => (snd (fst e), snd e)) (row r (s_entries w)).
Proof. reflexivity. Qed.

Lemma total_row_weight ws r : total_weight (map (sparse_edges r) ws) = row_weight ws r.
Proof.
  unfold total_weight, row_weight, all_entries. f_equal. induction ws as [|w ws IH]; [reflexivity|]. cbn [map concat]. rewrite row_app, !map_app, IH. f_equal. rewrite sparse_edges_row, map_map. reflexivity.
Qed.

Definition child_value (lls : list num) (c : nat) : num := nexp (nth c lls NaN).

Lemma nsum_concat l : nsum (concat l) = nsum (map nsum l).
Proof. induction l as [|a l IH]; [reflexivity|]. cbn [concat map]. rewrite nsum_app, IH. reflexivity. Qed.

Lemma mixture_value_weighted ws llss r : Forall (fun w => Forall lw_ok (map snd (row r (s_entries w)))) ws -> length llss = length ws ->
  mixture_value ws llss r = nsum (map (fun wv => nmul (Fin (wexp (fst wv))) (snd wv)) (weighted (map (sparse_edges r) ws) (map child_value llss))).
Proof.
  intros H L. unfold mixture_value, weighted. rewrite combine_map_l, combine_map_r, !map_map, concat_map, nsum_concat, !map_map. cbn [fst snd]. f_equal. revert llss L. induction H as [|w ws Hw Hws IH]; intros [|lls llss] L; try discriminate; [reflexivity|].
  cbn [combine map]. rewrite IH by (cbn in L; lia). f_equal. cbn [fst snd]. unfold part. rewrite sparse_edges_row, !map_map. cbn [fst snd]. f_equal. apply map_ext_in. intros e He. f_equal. apply nexp_wexp. rewrite Forall_map, Forall_forall in Hw. now apply Hw.
Qed.

Lemma sparse_mixture w0 ws' llss : let ws := w0 :: ws' in length llss = length ws ->
  all_entries ws <> [] -> Forall (fun w => Forall (fun e => fst (fst e) < s_rows w) (s_entries w)) ws -> Forall (fun w => s_rows w = s_rows w0) ws ->
  (forall r, r < s_rows w0 -> Forall2 (fun part lls => Forall (fun e => lw_ok (snd e) /\ fst e < length lls) part) (map (sparse_edges r) ws) llss) ->
  sparse_ll ws (map Some llss) = Some (map (fun r => nlog (mixture (map (sparse_edges r) ws) (map child_value llss))) (seq 0 (s_rows w0))).
Proof.
  intros ws L Hne Hb Hr He.
  assert (Hent : Forall2 (fun w lls => forall e, In e (s_entries w) -> lw_ok (snd e) /\ snd (fst e) < length lls) ws llss).
  { clear Hne. revert llss L He. generalize (s_rows w0) as n, ws as l, Hr, Hb. intros n l. induction l as [|w l IH]; intros Hr' Hb' [|lls llss] L He; try discriminate; constructor.
    - intros e Hin. inversion Hr' as [|? ? Hr1 Hr2]; subst. inversion Hb' as [|? ? Hb1 Hb2]; subst. rewrite Forall_forall in Hb1. specialize (He _ (Hb1 e Hin)). cbn [map] in He. inversion He as [|? ? ? ? He1 He2]; subst.
      rewrite Forall_forall in He1. apply (He1 (snd (fst e), snd e)). unfold sparse_edges. apply (in_map (fun e => (snd (fst e), snd e))). apply filter_In. split; [exact Hin|apply Nat.eqb_refl].
    - inversion Hr'; inversion Hb'; subst. apply IH; auto. intros r Hlt. specialize (He r Hlt). cbn [map] in He. now inversion He. }
  assert (Hok : Forall lw_ok (map snd (all_entries ws))).
  { apply Forall_map, Forall_forall. intros e Hin. unfold all_entries in Hin. apply in_concat in Hin. destruct Hin as (es & Hes & Hin). apply in_map_iff in Hes. destruct Hes as (w & <- & Hw).
    clear -Hent Hw Hin. induction Hent as [|w' lls l llss H1 H2 IH]; [destruct Hw|]. destruct Hw as [->|Hw]; [now apply H1|auto]. }
  unfold ws in *. rewrite sparse_ll_value; auto.
  - f_equal. apply map_ext. intros r. f_equal. unfold mixture. rewrite total_row_weight. f_equal. apply mixture_value_weighted; auto.
    apply Forall_forall. intros w Hw. apply Forall_map, Forall_forall. intros e Hin. apply filter_In in Hin. rewrite Forall_map, Forall_forall in Hok. apply Hok. unfold all_entries. apply in_concat. exists (s_entries w). split; [now apply in_map|tauto].
  - clear -Hent. induction Hent; constructor; auto. intros e Hin. now apply H.
Qed.

(** ** Dense sum layers *)
Lemma dense_loop_value n : forall ws llss (f : nat -> num), Forall2 (fun w lls => d_rows w = n /\ d_cols w = length lls) ws llss ->
  dense_loop ws (map Some llss) (map f (seq 0 n)) = Some (map (fun r => nadd (f r) (nsum (map (fun wl => nsum (map (fun xl => nmul (nexp (fst xl)) (nexp (snd xl))) (combine (dense_row (fst wl) r) (snd wl)))) (combine ws llss)))) (seq 0 n)).
Proof.
  intros ws llss f H. revert f. induction H as [|w lls ws llss [H1 H2] H IH]; intros f; cbn [dense_loop map combine].
  - f_equal. apply map_ext. intros r. cbn. now rewrite nadd_0_r.
  - unfold dense_part. rewrite H2, Nat.eqb_refl, H1, zip_with_map, IH. f_equal. apply map_ext. intros r. change (nsum (?x :: ?y)) with (nadd x (nsum y)). cbn [fst snd]. rewrite nadd_assoc. f_equal. f_equal. rewrite nexp_logsumexp, map_map. f_equal. apply map_ext. intros [a b]. cbn [fst snd]. now rewrite nexp_add.
Qed.

Lemma combine_seq_nth {A} (d : A) l : combine (seq 0 (length l)) l = map (fun c => (c, nth c l d)) (seq 0 (length l)).
Proof.
  assert (G : forall s, combine (seq s (length l)) l = map (fun c => (c, nth (c - s) l d)) (seq s (length l))).
  { induction l as [|a l IH]; intros s; [reflexivity|]. cbn [length seq combine map]. rewrite Nat.sub_diag. f_equal. rewrite IH. apply map_ext_in. intros c Hc. apply in_seq in Hc. replace (c - s) with (S (c - S s)) by lia. reflexivity. }
  rewrite G. apply map_ext. intros c. now rewrite Nat.sub_0_r.
Qed.

Lemma dense_row_combine w r (lls : list num) : d_cols w = length lls ->
  combine (dense_row w r) lls = map (fun e => (snd e, nth (fst e) lls NaN)) (dense_edges r w).
Proof.
  intros H. unfold dense_row, dense_edges. rewrite combine_map_l, H, (combine_seq_nth NaN), !map_map. reflexivity.
Qed.

Lemma dense_mixture w0 ws' llss : let ws := w0 :: ws' in
  Forall2 (fun w lls => d_rows w = d_rows w0 /\ d_cols w = length lls) ws llss ->
  (forall r, r < d_rows w0 -> (0 < total_weight (map (dense_edges r) ws))%R) ->
  (forall r, r < d_rows w0 -> Forall (Forall (fun e => lw_ok (snd e))) (map (dense_edges r) ws)) ->
  dense_ll ws (map Some llss) = Some (map (fun r => nlog (mixture (map (dense_edges r) ws) (map child_value llss))) (seq 0 (d_rows w0))).
Proof.
  intros ws Hs Hp Hok. unfold dense_ll, ws. fold ws. rewrite repeat_map, (dense_loop_value _ ws llss _ Hs). unfold dense_log_constants. rewrite zip_with_map. f_equal. apply map_ext_in. intros r Hr. apply in_seq in Hr.
  rewrite nadd_0_l. unfold mixture. specialize (Hp r ltac:(lia)). specialize (Hok r ltac:(lia)).
  assert (E1 : nsum (map (fun wl => nsum (map (fun xl => nmul (nexp (fst xl)) (nexp (snd xl))) (combine (dense_row (fst wl) r) (snd wl)))) (combine ws llss)) =
               nsum (map (fun wv => nmul (Fin (wexp (fst wv))) (snd wv)) (weighted (map (dense_edges r) ws) (map child_value llss)))).
  { unfold weighted. rewrite combine_map_l, combine_map_r, !map_map, concat_map, nsum_concat, !map_map. cbn [fst snd]. f_equal. clear Hp. induction Hs as [|w lls l llss [H1 H2] Hs IH]; [reflexivity|]. cbn [map] in Hok. inversion Hok as [|? ? O1 O2]; subst. cbn [combine map fst snd]. rewrite IH by assumption. f_equal.
    rewrite dense_row_combine by exact H2. rewrite !map_map. cbn [fst snd]. f_equal. apply map_ext_in. intros e He. unfold child_value. f_equal. apply nexp_wexp. rewrite Forall_forall in O1. now apply O1. }
  rewrite E1. set (M := nsum _).
  assert (E2 : logsumexp (concat (map (fun w => dense_row w r) ws)) = nlog (Fin (total_weight (map (dense_edges r) ws)))).
  { unfold logsumexp. f_equal. replace (concat (map (fun w => dense_row w r) ws)) with (map snd (concat (map (dense_edges r) ws))).
    - rewrite nsum_nexp_finite; [unfold total_weight; now rewrite map_map|]. clear -Hok. apply Forall_map, Forall_forall. intros e He. apply in_concat in He. destruct He as (p & Hp & He). rewrite Forall_forall in Hok. specialize (Hok p Hp). rewrite Forall_forall in Hok. now apply Hok.
    - clear. induction ws as [|w l IH]; [reflexivity|]. cbn [map concat]. rewrite map_app, IH. f_equal. unfold dense_edges, dense_row. rewrite map_map. reflexivity. }
  rewrite E2. apply nlog_ndiv; [|lra|intros; lra]. unfold M. apply nonneg_sum, Forall_map, Forall_forall. intros [w v] Hin. unfold weighted in Hin. apply in_concat in Hin. destruct Hin as (q & Hq & Hin). apply in_map_iff in Hq. destruct Hq as ([p g] & <- & Hpg). cbn in Hin. apply in_map_iff in Hin. destruct Hin as (e & Ee & He). inversion Ee; subst.
  apply in_combine_r in Hpg. apply in_map_iff in Hpg. destruct Hpg as (lls & <- & _). cbn [fst snd]. apply nonneg_mul; [cbn; apply wexp_nonneg|apply nexp_nonneg].
Qed.

(** ** Product layers *)
Lemma nexp_nsum l : nexp (nsum l) = nprod (map nexp l).
Proof. induction l as [|a l IH]; [cbn; now rewrite exp_0|]. cbn [map]. change (nsum (?x :: ?y)) with (nadd x (nsum y)). change (nprod (?x :: ?y)) with (nmul x (nprod y)). now rewrite nexp_add, IH. Qed.

Lemma prod_loop_value edges n : forall llss k (f : nat -> num), k + length llss <= s_rows edges ->
  (forall e lls, In e (s_entries edges) -> k <= fst (fst e) -> nth_error llss (fst (fst e) - k) = Some lls -> snd e < length lls) ->
  prod_loop edges k (map Some llss) (map f (seq 0 n)) =
  Some (map (fun r => nadd (f r) (nsum (concat (map (fun kl => map (fun c => nth c (snd kl) NaN) (prod_edges edges r (fst kl))) (combine (seq k (length llss)) llss))))) (seq 0 n)).
Proof.
  induction llss as [|lls llss IH]; intros k f Hk Hb; cbn [prod_loop map].
  - f_equal. apply map_ext. intros r. cbn. now rewrite nadd_0_r.
  - cbn in Hk. destruct (Nat.ltb_spec k (s_rows edges)); [|lia].
    rewrite (mapM_some _ (fun nc => (fst nc, nth (snd nc) lls NaN))).
    + rewrite scatter_add_map, IH; [|lia|].
      * f_equal. apply map_ext. intros r. cbn [length seq combine map concat fst snd]. rewrite nsum_app, nadd_assoc. f_equal. f_equal. f_equal.
        unfold edge_row, prod_edges. rewrite map_map. cbn [fst snd]. clear. induction (s_entries edges) as [|e es IHe]; [reflexivity|]. cbn [filter]. destruct (fst (fst e) =? k); cbn [map filter andb fst snd]; [|exact IHe]. destruct (snd (fst e) =? r); cbn [map snd]; now rewrite IHe.
      * intros e l Hin Hle Hnth. apply (Hb e l Hin); [lia|]. replace (fst (fst e) - k) with (S (fst (fst e) - S k)) by lia. exact Hnth.
    + intros nc Hnc. unfold edge_row in Hnc. apply in_map_iff in Hnc. destruct Hnc as (e & <- & He). apply filter_In in He. destruct He as [Hin Heq]. apply Nat.eqb_eq in Heq. cbn [fst snd]. rewrite (gather_nth _ _ NaN); [reflexivity|]. apply (Hb e lls Hin); [lia|]. rewrite Heq, Nat.sub_diag. reflexivity.
Qed.

(** ** Input layers *)
Lemma zip_with_nth {A B C} (f : A -> B -> C) a b r da db dc : length a = length b -> r < length a ->
  exists l, zip_with f a b = Some l /\ length l = length a /\ nth r l dc = f (nth r a da) (nth r b db).
Proof.
  intros L H. unfold zip_with. rewrite L, Nat.eqb_refl. eexists. split; [reflexivity|]. rewrite map_length, combine_length. split; [lia|].
  rewrite (nth_indep _ dc (f da db)) by (rewrite map_length, combine_length; lia). rewrite (map_nth (fun xy => f (fst xy) (snd xy)) _ (da, db)). now rewrite combine_nth.
Qed.

Lemma astype_int_INR k : astype_int (INR k) = Z.of_nat k.
Proof.
  unfold astype_int. destruct (Rltb_spec (INR k) 0); [pose proof (pos_INR k); lra|]. apply Int_part_INR.
Qed.

Lemma discrete_lookup k : forall (ps : list R) s acc,
  fold_left (fun acc kv => if Reqb (INR k) (IZR (fst kv)) then nlog (Fin (snd kv)) else acc) (combine (map Z.of_nat (seq s (length ps))) ps) acc =
  if (s <=? k) && (k <? s + length ps) then nlog (Fin (nth (k - s) ps 0%R)) else acc.
Proof.
  induction ps as [|p ps IH]; intros s acc; cbn [length seq map combine fold_left fst snd].
  - destruct (Nat.leb_spec s k), (Nat.ltb_spec k (s + 0)); cbn; auto; lia.
  - rewrite IH. rewrite <- INR_IZR_INZ. destruct (Reqb_spec (INR k) (INR s)) as [E|N].
    + apply INR_eq in E. subst s. rewrite Nat.leb_refl, Nat.sub_diag. destruct (Nat.leb_spec (S k) k); [lia|]. destruct (Nat.ltb_spec k (k + S (length ps))); [|lia]. reflexivity.
    + assert (s <> k) by (intros ->; now apply N). destruct (Nat.leb_spec (S s) k), (Nat.leb_spec s k), (Nat.ltb_spec k (S s + length ps)), (Nat.ltb_spec k (s + S (length ps))); cbn [andb]; auto; try lia.
      replace (k - s) with (S (k - S s)) by lia. reflexivity.
Qed.

Lemma mapM_nth {A B} (f : A -> option B) l l' r da db : mapM f l = Some l' -> r < length l -> f (nth r l da) = Some (nth r l' db) /\ length l' = length l.
Proof.
  intros H Hr. apply mapM_Forall2 in H. assert (L : length l' = length l) by (symmetry; clear -H; induction H; cbn; congruence). split; [|exact L].
  revert r Hr. induction H as [|a b l l' Hab H IH]; intros r Hr; [cbn in Hr; lia|]. destruct r as [|r]; cbn; [exact Hab|]. apply IH; cbn in *; lia.
Qed.

Lemma input_value env v i : input_sound i -> fits env (LInput v i) ->
  exists lls, input_ll i (env v) = Some lls /\ length lls = input_nodes i /\ forall r, r < input_nodes i -> nth r lls NaN = ll1 (input_dist v i r) (env v).
Proof.
  intros Hs Hf. destruct i as [loc ls ms|ps|is|loc cap]; cbn [input_ll input_nodes input_sound fits] in *.
  - destruct Hs as [H1 H2]. unfold scales, zip_with. rewrite H1, H2, Nat.eqb_refl. rewrite map_length, combine_length, H1, H2, Nat.min_id, Nat.eqb_refl. eexists. split; [reflexivity|]. rewrite map_length, combine_length, map_length, combine_length. split; [lia|]. intros r Hr.
    rewrite (nth_indep _ NaN (gauss_logpdf (fst (0,0)%R) (snd (0,0)%R) (env v))) by (rewrite map_length, combine_length, map_length, combine_length; lia). rewrite (map_nth (fun xy => gauss_logpdf (fst xy) (snd xy) (env v))). rewrite combine_nth by (rewrite map_length, combine_length; lia). cbn [fst snd input_dist ll1]. f_equal.
    rewrite (nth_indep _ 0%R (exp (fst (0,0)%R) + snd (0,0)%R)%R) by (rewrite map_length, combine_length; lia). rewrite (map_nth (fun xy => (exp (fst xy) + snd xy)%R)), combine_nth by lia. reflexivity.
  - destruct Hf as (k & Ek & Hk). rewrite Ek, astype_int_INR.
    rewrite (mapM_some _ (fun row => nth k (normalized_log_probabilities row) NaN)).
    + eexists. split; [reflexivity|]. rewrite map_length. split; [reflexivity|]. intros r Hr. rewrite (nth_indep _ NaN (nth k (normalized_log_probabilities []) NaN)) by now rewrite map_length. rewrite (map_nth (fun row => nth k (normalized_log_probabilities row) NaN)). cbn [input_dist ll1].
      set (row := nth r ps []). assert (Hin : In row ps) by now apply nth_In. specialize (Hk row Hin). destruct (Hs row Hin) as [Hok Hp].
      replace (length row) with (length (softmax row)) by (unfold softmax; apply map_length). rewrite discrete_lookup. cbn [Nat.leb andb Nat.add]. replace (length (softmax row)) with (length row) by (unfold softmax; now rewrite map_length). destruct (Nat.ltb_spec k (length row)); [|lia]. rewrite Nat.sub_0_r.
      unfold normalized_log_probabilities, softmax. rewrite (nth_indep _ NaN (nsub NaN (logsumexp row))) by now rewrite map_length. rewrite (map_nth (fun p => nsub p (logsumexp row))).
      rewrite (nth_indep _ 0%R (wexp NaN / Rsum (map wexp row))%R) by now rewrite map_length. rewrite (map_nth (fun p => (wexp p / Rsum (map wexp row))%R)).
      destruct (logsumexp_weights row Hok Hp) as (z & -> & <-). set (p := nth k row NaN). assert (Hp' : lw_ok p) by (rewrite Forall_forall in Hok; apply Hok, nth_In; exact Hk). destruct p as [| |p|]; try (cbn in Hp'; tauto).
      * cbn [wexp]. replace (0 / exp z)%R with 0%R by (field; pose proof (exp_pos z); lra). now rewrite nlog_Fin_0.
      * cbn [wexp]. unfold Rdiv. rewrite <- exp_Ropp, <- exp_plus. rewrite nlog_Fin_pos by apply exp_pos. rewrite ln_exp. reflexivity.
    + intros row Hin. specialize (Hk row Hin). unfold gatherZ. destruct (Z.ltb_spec (Z.of_nat k) 0); [lia|]. rewrite Nat2Z.id. apply gather_nth. unfold normalized_log_probabilities. now rewrite map_length.
  - eexists. split; [reflexivity|]. rewrite map_length. split; [reflexivity|]. intros r Hr. set (g := fun ab : R * R => _). rewrite (nth_indep _ NaN (g (0,0)%R)) by now rewrite map_length. rewrite map_nth. reflexivity.
  - unfold zip_with. rewrite Hs, Nat.eqb_refl. eexists. split; [reflexivity|]. rewrite map_length, combine_length. split; [lia|]. intros r Hr. set (g := fun xy : R * num => _). rewrite (nth_indep _ NaN (g (0%R, NaN))) by (rewrite map_length, combine_length; lia). rewrite map_nth, combine_nth by lia. reflexivity.
Qed.

(** ** Layers *)

(** [aligned cols L]: if [L] is evaluated on the columns [cols] of the data, each input layer gets the column of its
    variable. *)
Fixpoint aligned (cols : list nat) (L : layer) : Prop :=
  match L with
  | LInput v _ => cols = [v]
  | LSparse _ cs | LDense _ cs => fold_right and True (map (aligned cols) cs)
  | LProd _ cs => fold_right and True (map (fun c => exists cols', mapM (gather cols) (variables c) = Some cols' /\ aligned cols' c) cs)
  end.

Lemma gather_map {A B} (f : A -> B) l i : gather (map f l) i = option_map f (gather l i).
Proof. unfold gather. rewrite map_length. apply nth_error_map. Qed.

Lemma select_map (env : nat -> R) (cols : list nat) vs cols' : mapM (gather cols) vs = Some cols' -> select (map env cols) vs = Some (map env cols').
Proof.
  intros H. unfold select. revert cols' H. induction vs as [|v vs IH]; intros cols' H; cbn [mapM] in *; [inversion H; reflexivity|].
  rewrite gather_map. destruct (gather cols v) as [c|]; [|discriminate]. destruct (mapM (gather cols) vs) as [l|]; [|discriminate]. inversion H; subst. rewrite (IH _ eq_refl). reflexivity.
Qed.

(** The evaluation of a list of child layers. *)
Lemma children_value env (eval : layer -> option (list num)) cs :
  (forall c, In c cs -> exists lls, eval c = Some lls /\ length lls = number_of_nodes c /\ forall r, r < number_of_nodes c -> nexp (nth r lls NaN) = density env (tree c r)) ->
  exists llss, map eval cs = map Some llss /\ Forall2 (fun c lls => length lls = number_of_nodes c /\ forall r, r < number_of_nodes c -> child_value lls r = density env (tree c r)) cs llss.
Proof.
  induction cs as [|c cs IH]; intros H; [exists []; split; [reflexivity|constructor]|]. destruct IH as (llss & E & F); [intros; apply H; now right|]. destruct (H c (or_introl eq_refl)) as (lls & E1 & E2 & E3).
  exists (lls :: llss). cbn. rewrite E1, E. split; [reflexivity|]. constructor; [|exact F]. split; assumption.
Qed.

Lemma mixture_ext parts (f g : list (nat -> num)) : Forall2 (fun p fg => forall e, In e p -> fst fg (fst e) = snd fg (fst e)) parts (combine f g) -> length f = length g -> mixture parts f = mixture parts g.
Proof.
  intros H L. unfold mixture. f_equal. f_equal. unfold weighted. rewrite !concat_map, !map_map. f_equal. revert f g H L. induction parts as [|p parts IH]; intros f g H L; [reflexivity|].
  destruct f as [|a f], g as [|b g]; try discriminate; [reflexivity|]. cbn [combine] in H. inversion H as [|? ? ? ? H1 H2]; subst. cbn [combine map fst snd]. f_equal; [|apply IH; auto]. rewrite !map_map. apply map_ext_in. intros e He. specialize (H1 e He). cbn [fst snd] in *. rewrite <- H1. reflexivity.
Qed.

Lemma nth_map_seq (f : nat -> num) n r : r < n -> nth r (map f (seq 0 n)) NaN = f r.
Proof. intros H. rewrite (nth_indep _ NaN (f 0)) by now rewrite map_length, seq_length. rewrite map_nth, seq_nth by exact H. reflexivity. Qed.

Lemma mixture_nonneg' parts vals : (0 < total_weight parts)%R -> Forall (fun f => forall c, nonneg (f c)) vals -> nonneg (mixture parts vals).
Proof.
  intros Hp H. unfold mixture. rewrite ndiv_pos by exact Hp. apply nonneg_mul; [cbn; left; now apply Rinv_0_lt_compat|]. apply nonneg_sum, Forall_map, Forall_forall. intros [w v] Hin. unfold weighted in Hin. apply in_concat in Hin. destruct Hin as (q & Hq & Hin). apply in_map_iff in Hq. destruct Hq as ([p g] & <- & Hpg). cbn in Hin. apply in_map_iff in Hin. destruct Hin as (e & Ee & He). inversion Ee; subst.
  apply in_combine_r in Hpg. rewrite Forall_forall in H. apply nonneg_mul; [cbn; apply wexp_nonneg|now apply H].
Qed.

Theorem layer_value env L : forall cols, sound L -> fits env L -> aligned cols L ->
  exists lls, ll L (map env cols) = Some lls /\ length lls = number_of_nodes L /\ forall r, r < number_of_nodes L -> nexp (nth r lls NaN) = density env (tree L r).
Proof.
  induction L as [v i|ws cs IH|ws cs IH|edges cs IH] using layer_ind'; intros cols Hs Hf Ha.
  - cbn [aligned] in Ha. subst cols. cbn [map ll]. destruct (input_value env v i Hs Hf) as (lls & E1 & E2 & E3). exists lls. split; [exact E1|]. split; [exact E2|]. intros r Hr. rewrite E3 by exact Hr. cbn [tree density semN]. unfold density. cbn [semN]. destruct i; reflexivity.
  - cbn [sound fits aligned] in *. destruct Hs as (Hne & Hb & Hn & Hsum & Hcs). rewrite fold_and_Forall in Hcs, Hf, Ha. cbn [ll].
    destruct (children_value env (fun c => ll c (map env cols)) cs) as (llss & E & F).
    { intros c Hc. rewrite Forall_forall in IH, Hcs, Hf, Ha. apply IH; auto. }
    rewrite E. destruct ws as [|w0 ws]; [contradiction|]. cbn [hd number_of_nodes] in *. destruct Hsum as (Hrows & Hp & Hparts).
    assert (L1 : length cs = length (w0 :: ws)). { assert (X : 0 < s_rows w0) by lia. specialize (Hparts 0 X). clear -Hparts. rewrite <- (map_length (sparse_edges 0)). induction Hparts; cbn in *; congruence. }
    assert (L2 : length llss = length cs) by (clear -F; induction F; cbn; congruence).
    rewrite sparse_mixture; auto.
    + eexists. split; [reflexivity|]. split; [now rewrite map_length, seq_length|]. intros r Hr. rewrite nth_map_seq by exact Hr. cbn [tree]. rewrite density_sum by now apply Hp. rewrite nexp_nlog.
      * rewrite (map_map _ (fun t c => density env (t c))). apply mixture_ext; [|now rewrite !map_length].
        specialize (Hparts r Hr). clear -F Hparts. revert llss F. induction Hparts as [|p c parts cs P1 P2 IH]; intros llss F; inversion F as [|? ? ? ? F1 F2]; subst; cbn [map combine]; constructor; auto.
        intros e He. rewrite Forall_forall in P1. cbn [fst snd]. apply F1. now apply P1.
      * apply mixture_nonneg'; [now apply Hp|]. apply Forall_map, Forall_forall. intros lls _ c. apply nexp_nonneg.
    + congruence.
    + intros X. specialize (Hp 0 ltac:(lia)). rewrite total_row_weight in Hp. unfold row_weight in Hp. rewrite X in Hp. cbn in Hp. lra.
    + rewrite Forall_map in Hrows. exact Hrows.
    + intros r Hr. specialize (Hparts r Hr). clear -F Hparts. revert llss F. induction Hparts as [|p c parts cs P1 P2 IH]; intros llss F; inversion F as [|? ? ? ? F1 F2]; subst; constructor; auto. destruct F1 as [-> _]. exact P1.
  - cbn [sound fits aligned] in *. destruct Hs as (Hne & Hb & Hsum & Hcs). rewrite fold_and_Forall in Hcs, Hf, Ha. cbn [ll].
    destruct (children_value env (fun c => ll c (map env cols)) cs) as (llss & E & F).
    { intros c Hc. rewrite Forall_forall in IH, Hcs, Hf, Ha. apply IH; auto. }
    rewrite E. destruct ws as [|w0 ws]; [contradiction|]. cbn [number_of_nodes] in *. destruct Hsum as (Hrows & Hp & Hparts).
    assert (L2 : length llss = length cs) by (clear -F; induction F; cbn; congruence).
    assert (L1 : length cs = length (w0 :: ws)) by (symmetry; clear -Hb; induction Hb; cbn; congruence).
    rewrite dense_mixture; auto.
    + eexists. split; [reflexivity|]. split; [now rewrite map_length, seq_length|]. intros r Hr. rewrite nth_map_seq by exact Hr. cbn [tree]. rewrite density_sum by now apply Hp. rewrite nexp_nlog.
      * rewrite (map_map _ (fun t c => density env (t c))). apply mixture_ext; [|now rewrite !map_length].
        specialize (Hparts r Hr). clear -F Hparts. revert llss F. induction Hparts as [|p c parts cs P1 P2 IH]; intros llss F; inversion F as [|? ? ? ? F1 F2]; subst; cbn [map combine]; constructor; auto.
        intros e He. rewrite Forall_forall in P1. cbn [fst snd]. apply F1. now apply P1.
      * apply mixture_nonneg'; [now apply Hp|]. apply Forall_map, Forall_forall. intros lls _ c. apply nexp_nonneg.
    + rewrite Forall_map in Hrows. clear -F Hb Hrows. revert llss F. induction Hb as [|w c ws' cs Hw Hb IH]; intros llss F; inversion F as [|? ? ? ? F1 F2]; subst; constructor; inversion Hrows; subst; auto. split; auto. destruct F1 as [-> _]. exact Hw.
    + intros r Hr. specialize (Hparts r Hr). clear -Hparts. induction Hparts as [|p c parts cs P1 P2 IH]; constructor; auto. eapply Forall_impl; [|exact P1]. cbn. tauto.
  - cbn [sound fits aligned] in *. destruct Hs as (Hr & Hb & Hcs). rewrite fold_and_Forall in Hcs, Hf, Ha. cbn [ll].
    destruct (children_value env (fun c => match select (map env cols) (variables c) with None => None | Some x' => ll c x' end) cs) as (llss & E & F).
    { intros c Hc. rewrite Forall_forall in IH, Hcs, Hf, Ha. destruct (Ha c Hc) as (cols' & A1 & A2). rewrite (select_map _ _ _ _ A1). apply IH; auto. }
    rewrite E. assert (L2 : length llss = length cs) by (clear -F; induction F; cbn; congruence). rewrite repeat_map, prod_loop_value.
    + eexists. split; [reflexivity|]. split; [now rewrite map_length, seq_length|]. cbn [number_of_nodes]. intros r Hlt. rewrite nth_map_seq by exact Hlt. rewrite nadd_0_l, nexp_nsum. cbn [tree]. unfold density, prod_tree. cbn [semN]. f_equal. rewrite !concat_map, !map_map. cbn [fst snd]. f_equal. rewrite map_length, combine_map_r, map_map, L2. cbn [fst snd].
      assert (G : forall k, (forall e c, In e (s_entries edges) -> k <= fst (fst e) -> nth_error cs (fst (fst e) - k) = Some c -> snd e < number_of_nodes c) ->
        map (fun kl => map nexp (map (fun c => nth c (snd kl) NaN) (prod_edges edges r (fst kl)))) (combine (seq k (length cs)) llss) =
        map (fun x => map (semN (fun d => nexp (ll1 d (env (dvar d))))) (map (tree (snd x)) (prod_edges edges r (fst x)))) (combine (seq k (length cs)) cs)).
      { clear -F. induction F as [|c lls cs llss F1 F2 IH]; intros k Hk; [reflexivity|]. cbn [length seq combine map fst snd]. f_equal.
        - rewrite !map_map. apply map_ext_in. intros j Hj. unfold prod_edges in Hj. apply in_map_iff in Hj. destruct Hj as (e & <- & He). apply filter_In in He. destruct He as [Hin He]. apply andb_true_iff in He. destruct He as [He _]. apply Nat.eqb_eq in He. apply F1. apply (Hk e c Hin); [lia|]. now rewrite He, Nat.sub_diag.
        - apply IH. intros e c' Hin Hle Hnth. apply (Hk e c' Hin); [lia|]. replace (fst (fst e) - k) with (S (fst (fst e) - S k)) by lia. exact Hnth. }
      apply G. intros e c Hin _ Hnth. rewrite Nat.sub_0_r in Hnth. now apply (Hb e c).
    + lia.
    + intros e lls Hin _ Hnth. rewrite Nat.sub_0_r in Hnth. assert (X : exists c, nth_error cs (fst (fst e)) = Some c /\ length lls = number_of_nodes c).
      { clear -F Hnth. revert Hnth. generalize (fst (fst e)) as k. induction F as [|c l cs llss F1 F2 IH]; intros k Hk; destruct k; cbn in *; try discriminate; [inversion Hk; subst; exists c; tauto|]. now apply IH. }
      destruct X as (c & X1 & X2). rewrite X2. now apply (Hb e c).
Qed.
