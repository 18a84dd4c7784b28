(** * JaxFromNxSolid: the arrays of the layers that from_nx makes fit together *)
From Coq Require Import List Arith Bool Lia Sorted Permutation Reals Lra ZArith.
From Verif Require Import Num Graph GraphFacts Spec SpecFacts Circuit EvalFacts VarFacts Interval Dist DistFacts TreeLocal SimplifyFacts ModeFacts PropertiesDist BayesFacts Interaction InteractionFacts RegionCircuit PropertiesJptParams
  JaxLayer JaxLayerFacts JaxSpec JaxMeaning JaxToNxFacts JaxFromNx JaxFromNxSpec JaxFromNxFacts JaxFromNxTotal.
Import ListNotations.
Local Set Bullet Behavior "Strict Subproofs".
Local Open Scope nat_scope.

(** Every layer of one depth is made by [create_layer] from units of one class and one scope. *)
Section Every.
Variable domain : nat -> nat.
Variables before after : R -> R.
Variable g : graph dist.
Variable vars : list nat.

Lemma by_scope_every (P : converted -> Prop) order t nodes children cs : create_by_scope domain before after g vars order t children nodes = Some cs -> NoDup nodes ->
  (forall nodes' s c, incl nodes' nodes -> NoDup nodes' -> (forall u, In u nodes' -> scope g u = Some s) -> create_layer domain before after g vars t children nodes' = Some c -> P c) -> Forall P cs.
Proof.
  intros H Nn K. unfold create_by_scope in H. destruct (mapM _ nodes) as [us|] eqn:E; [|discriminate].
  set (h := fun u => match scope g u with Some s => s | None => [] end). destruct (mapM_pair (scope g) nodes us h E) as [Eus Hs]; [intros u s Q; unfold h; now rewrite Q|].
  apply Forall_forall. intros c Hc. destruct (mapM_in _ _ _ c H Hc) as (s & _ & Q). rewrite Eus, fst_filter_map in Q.
  apply (K (filter (fun u => if scope_eq (h u) s then true else false) nodes) s c); auto.
  - intros u Hu. now apply filter_In in Hu.
  - now apply NoDup_filter.
  - intros u Hu. apply filter_In in Hu as [Hu X]. rewrite (Hs u Hu). destruct (scope_eq (h u) s); congruence.
Qed.

Lemma depth_every (P : converted -> Prop) to so nodes children cs : (forall u, In u nodes -> fine domain g vars u) -> create_layers domain before after g vars to so nodes children = Some cs -> NoDup nodes ->
  (forall t nodes' s c, incl nodes' nodes -> NoDup nodes' -> (forall u, In u nodes' -> has_type g t u /\ scope g u = Some s) -> create_layer domain before after g vars t children nodes' = Some c -> P c) -> Forall P cs.
Proof.
  intros Fi H Nn K. unfold create_layers, kinds in H. destruct (mapM _ nodes) as [ks|] eqn:E; [|discriminate]. destruct (mapM (create_by_type _ _ _ _ _ _ _ _) _) as [css|] eqn:M; [|discriminate]. inversion H; subst cs. clear H.
  set (h := fun u => match node_kind g u with Some k => k | None => USum end). destruct (mapM_pair (node_kind g) nodes ks h E) as [Eks Hk]; [intros u s Q; unfold h; now rewrite Q|].
  apply Forall_forall. intros c Hc. apply in_concat in Hc as (cs & Hcs & Hc). destruct (mapM_in _ _ _ cs M Hcs) as (t & _ & Q). unfold create_by_type in Q.
  assert (Own : map fst (filter (fun uk => instance_of (snd uk) t) ks) = filter (fun u => if utype_eq (unit_type (h u)) t then true else false) nodes).
  { rewrite Eks. assert (A : forall u, In u nodes -> instance_of (h u) t = if utype_eq (unit_type (h u)) t then true else false) by (intros u Hu; apply (fine_instance domain g vars u); auto). clear -A. induction nodes as [|u l IH]; [reflexivity|]. cbn [map filter fst snd]. rewrite (A u (or_introl eq_refl)). destruct (utype_eq _ _); cbn [map fst]; rewrite IH by (intros; apply A; now right); reflexivity. }
  assert (All : forall cs, create_by_scope domain before after g vars (so t) t children (map fst (filter (fun uk => instance_of (snd uk) t) ks)) = Some cs -> Forall P cs).
  { intros cs' C. rewrite Own in C. apply (by_scope_every P _ _ _ _ _ C); [now apply NoDup_filter|]. intros nodes' s c' I N Sc C'. apply (K t nodes' s c'); auto.
    - intros u Hu. apply I in Hu. now apply filter_In in Hu.
    - intros u Hu. split; [|auto]. apply I in Hu. apply filter_In in Hu as [Hu X]. exists (h u). split; [auto|]. destruct (utype_eq _ _); congruence. }
  assert (F : Forall P cs); [|rewrite Forall_forall in F; auto].
  destruct ks as [|[u0 k0] ks'] eqn:Ek; [discriminate|]. rewrite <- Ek in *. destruct (filter _ ks) as [|[u1 k1] own] eqn:Eo; [discriminate|]. destruct (is_leaf k0); [|now apply All].
  destruct (is_leaf k1); [|discriminate]. assert (T1 : unit_type k1 = t).
  { assert (A : In (u1, k1) (filter (fun uk => instance_of (snd uk) t) ks)) by (rewrite Eo; now left). apply filter_In in A as [A B]. rewrite Eks in A. apply in_map_iff in A as (u & X & Hu). inversion X; subst u1 k1. cbn [snd] in B. rewrite (fine_instance domain g vars u (h u) t (Fi u Hu) (Hk u Hu)) in B. destruct (utype_eq _ _); congruence. }
  rewrite T1 in Q. now apply All.
Qed.
End Every.

Section Solid.
Variable domain : nat -> nat.
Variables before after : R -> R.
Variable g : graph dist.
Variable vars : list nat.
Hypothesis Hvars : StronglySorted lt vars.
Hypothesis Hwf : wf g.
Notation fine := (fine domain g vars).
Notation good := (good domain before after g vars).
Variable live : id -> Prop.
Hypothesis Hdist : forall u d, live u -> node_kind g u = Some (ULeaf d) -> dist_ok d.
Hypothesis Hweights : forall u ts, live u -> unfolds g u (PSum ts) -> Forall lw_ok (map fst ts) /\ (0 < Rsum (map (fun wt => wexp (fst wt)) ts))%R.
Hypothesis Hfull : forall u, live u -> node_kind g u = Some UProd -> scope g u = Some vars.
Variable env : nat -> R.
Hypothesis Henv : forall u v p, live u -> node_kind g u = Some (ULeaf (DSym v p)) -> exists k, env (column vars v) = INR k /\ k < domain v.

Record solid (c : converted) : Prop := {
  so_sound : sound (c_layer c);
  so_indexed : indexed (c_layer c);
  so_covered : Forall (covered (length vars)) (all_layers (c_layer c));
  so_aligned : aligned (variables (c_layer c)) (c_layer c);
  so_fits : fits env (c_layer c)
}.

Lemma covered_columns L s : variables L = map (column vars) s -> incl s vars -> covered (length vars) L.
Proof.
  intros E I'. unfold covered. rewrite E. apply forallb_forall. intros x Hx. apply in_map_iff in Hx as (v & <- & Hv). apply Nat.ltb_lt.
  pose proof (column_index vars v Hvars (I' v Hv)) as C. apply var_index_some in C. apply nth_error_Some. congruence.
Qed.

Lemma input_solid t nodes c s : create_input_layer domain before after g vars t nodes = Some c -> NoDup nodes ->
  (forall u, In u nodes -> live u /\ fine u /\ scope g u = Some s /\ exists d, node_kind g u = Some (ULeaf d) /\ dist_type d = t) -> solid c.
Proof.
  intros H N K. destruct (input_good domain before after g vars Hvars t nodes c s H N) as [Gc _]. { intros u Hu. destruct (K u Hu) as (_ & A). exact A. }
  unfold create_input_layer in H. destruct (dists g nodes) as [ds|] eqn:Ed; [|discriminate]. destruct ds as [|d0 ds0] eqn:Eds; [discriminate|]. rewrite <- Eds in *.
  destruct (var_index vars (dvar d0)) as [v|] eqn:Ev; [|discriminate]. destruct (create_input domain before after t ds) as [i|] eqn:Ei; [|discriminate]. inversion H; subst c. clear H.
  assert (All : forall d, In d ds -> exists u, In u nodes /\ live u /\ node_kind g u = Some (ULeaf d) /\ dist_type d = t /\ leaf_fits domain d /\ dist_ok d /\ s = [dvar d]).
  { intros d Hd. destruct (mapM_in _ _ _ d Ed Hd) as (u & Hu & X). exists u. split; [exact Hu|]. destruct (K u Hu) as (Lu & (t' & U & _ & _ & F & _) & Sc & d' & B & T). rewrite B in X. assert (d' = d) by congruence. subst d'. split; [exact Lu|]. split; [exact B|]. split; [exact T|].
    split; [|split; [now apply (Hdist u)|]].
    - inversion U as [u' d' Y|u' ts Y|u' ts Y]; subst; try congruence. assert (d' = d) by congruence. now subst d'.
    - unfold scope in Sc. cbn [unit_variables] in Sc. rewrite B in Sc. cbn in Sc. congruence. }
  assert (Disc : t = TSym -> exists rows, mapM (fun d => match d with DSym v p => probability_row (domain v) p | _ => None end) ds = Some rows /\ i = IDiscrete (map (map (fun q => nlog (Fin q))) rows)).
  { intros ->. cbn [create_input] in Ei. destruct (mapM _ ds) as [rows|]; [|discriminate]. exists rows. split; [reflexivity|]. congruence. }
  assert (Row : forall rows row, mapM (fun d => match d with DSym v p => probability_row (domain v) p | _ => None end) ds = Some rows -> In row rows ->
    exists u w p, live u /\ node_kind g u = Some (ULeaf (DSym w p)) /\ s = [w] /\ row = map (fun k => dget p (Z.of_nat k)) (seq 0 (domain w)) /\ dict_ok p /\ Rsum row = 1%R).
  { intros rows row M Hr. destruct (mapM_in _ _ _ row M Hr) as (d & Hd & X). destruct (All d Hd) as (u & _ & Lu & B & _ & F & O & Es). destruct d as [| | | |w p|]; try discriminate. exists u, w, p. destruct F as [[Nk Np] F]. rewrite row_spec in X by assumption. assert (Er : row = map (fun k => dget p (Z.of_nat k)) (seq 0 (domain w))) by congruence.
    split; [exact Lu|]. split; [exact B|]. split; [exact Es|]. split; [exact Er|]. split; [now split|]. destruct O as [_ O]. rewrite <- O, (vals_sum p (map Z.of_nat (seq 0 (domain w)))).
    - now rewrite map_map, Er.
    - exact Nk.
    - apply FinFun.Injective_map_NoDup; [intros a b; apply Nat2Z.inj|apply seq_NoDup].
    - intros k Hk. rewrite Forall_forall in F. specialize (F k Hk). apply in_map_iff. exists (Z.to_nat k). split; [lia|]. apply in_seq. lia. }
  constructor; cbn [c_layer].
  - cbn [sound]. destruct t; cbn [create_input] in Ei; try discriminate; try (destruct (mapM _ ds) as [ps|]; [|discriminate]; inversion Ei; subst i; cbn; rewrite ?map_length; auto; fail).
    destruct (Disc eq_refl) as (rows & M & ->). cbn [input_sound]. intros row Hr. apply in_map_iff in Hr as (row' & <- & Hr). destruct (Row rows row' M Hr) as (u & w & p & _ & _ & _ & -> & Dp & Sp).
    assert (W : forall k, wexp (nlog (Fin (dget p (Z.of_nat k)))) = dget p (Z.of_nat k) /\ lw_ok (nlog (Fin (dget p (Z.of_nat k))))).
    { intros k. pose proof (dget_nonneg p (Z.of_nat k) Dp). split; [now apply wexp_nlog|]. unfold nlog. destruct (total_order_T _ _) as [[Q|Q]|Q]; cbn; auto. lra. }
    split; [apply Forall_forall; intros x Hx; rewrite map_map in Hx; apply in_map_iff in Hx as (k & <- & _); apply W|].
    rewrite !map_map. erewrite map_ext; [|intros k; apply W]. rewrite Sp. lra.
  - exact I.
  - constructor; [|constructor]. destruct (gd_scope _ _ _ _ _ _ Gc) as (s' & _ & _ & I' & E' & _). cbn [c_layer] in E'. now apply (covered_columns _ s').
  - reflexivity.
  - cbn [fits]. destruct i as [loc ls ms|ps|is|loc cap] eqn:Ei'; auto. rewrite <- Ei' in *.
    assert (Et : t = TSym) by (destruct t; cbn [create_input] in Ei; try discriminate; try reflexivity; destruct (mapM _ ds); try discriminate; congruence).
    destruct (Disc Et) as (rows & M & Er). assert (Ep : ps = map (map (fun q => nlog (Fin q))) rows) by congruence.
    subst ps. destruct (All d0) as (u0 & _ & L0 & B0 & T0 & _ & _ & S0); [rewrite Eds; now left|]. rewrite Et in T0. destruct d0 as [| | | |w0 p0|]; try discriminate T0. destruct (Henv u0 w0 p0 L0 B0) as (k & Ek & Hk).
    cbn [dvar] in Ev, S0. assert (Hv : In w0 vars). { apply var_index_some in Ev. now apply nth_error_In in Ev. } rewrite (column_index vars w0 Hvars Hv) in Ev. inversion Ev; subst v. exists k. split; [exact Ek|].
    intros row Hr. apply in_map_iff in Hr as (row' & <- & Hr). destruct (Row rows row' M Hr) as (u & w & p & _ & _ & Es & -> & _). rewrite !map_length, seq_length. congruence.
Qed.

(** *** Sum layers *)

Lemma var_index_lt l u k : var_index l u = Some k -> k < length l.
Proof. intros H. apply var_index_some in H. apply nth_error_Some. congruence. Qed.

Lemma matrix_entries nodes c w : weight_matrix g nodes c = Some w ->
  s_rows w = length nodes /\
  (forall e, In e (s_entries w) -> exists u ed, nth_error nodes (fst (fst e)) = Some u /\ In ed (out_edges g u) /\ e_lw ed = Some (snd e) /\ hash_remap c (e_dst ed) = Some (snd (fst e))) /\
  NoDup (map fst (s_entries w)).
Proof.
  intros H. unfold weight_matrix in H. destruct (mapM (sum_entries g c) (enumerate nodes)) as [es|] eqn:E; [|discriminate].
  assert (Hw : w = mkSparse (length nodes) (number_of_nodes (c_layer c)) (concat es)) by (destruct (concat es); congruence). clear H. subst w. cbn [s_rows s_entries]. split; [reflexivity|].
  assert (Sp : forall i u e, sum_entries g c (i, u) = Some e -> (forall x, In x e -> fst (fst x) = i /\ exists ed, In ed (out_edges g u) /\ e_lw ed = Some (snd x) /\ hash_remap c (e_dst ed) = Some (snd (fst x))) /\ NoDup (map fst e)).
  { intros i u e H. unfold sum_entries in H. cbn [fst snd] in H. destruct (mapM _ (out_edges g u)) as [ws|] eqn:M; [|discriminate]. inversion H; subst e. clear H. split.
    - intros x Hx. apply in_flat_map in Hx as (wc & Hwc & Hx). destruct (mapM_in _ _ _ wc M Hwc) as (ed & He & Q). destruct (e_lw ed) as [lw|] eqn:El; [|discriminate]. inversion Q; subst wc. cbn [fst snd] in *. destruct (hash_remap c (e_dst ed)) as [k|] eqn:Hk; [|destruct Hx]. destruct Hx as [<-|[]]. cbn. split; [reflexivity|]. exists ed. auto.
    - pose proof (out_NoDup g u Hwf) as Nd. assert (Nw : NoDup (map snd ws)).
      { replace (map snd ws) with (map e_dst (out_edges g u)); [exact Nd|]. clear -M. revert ws M. induction (out_edges g u) as [|e l IH]; intros ws M; cbn [mapM] in M; [inversion M; reflexivity|]. destruct (e_lw e); [|discriminate]. destruct (mapM _ l); [|discriminate]. inversion M; subst. cbn. f_equal. now apply IH. }
      clear -Nw. induction ws as [|wc ws IH]; [constructor|]. cbn [map flat_map] in *. inversion Nw as [|? ? N1 N2]; subst. destruct (hash_remap c (snd wc)) as [k|] eqn:Hk; [|now apply IH]. cbn [app map]. constructor; [|now apply IH].
      intros X. apply in_map_iff in X as (x & E & X). apply in_flat_map in X as (wc' & Hwc' & X). destruct (hash_remap c (snd wc')) as [k'|] eqn:Hk'; [|destruct X]. destruct X as [<-|[]]. cbn in E. assert (k' = k) by congruence. subst k'.
      apply var_index_some in Hk, Hk'. apply N1. assert (snd wc = snd wc') as -> by congruence. now apply in_map. }
  split.
  - intros x Hx. apply in_concat in Hx as (e & He & Hx). destruct (mapM_in _ _ _ e E He) as ([i u] & Hi & Q). destruct (Sp i u e Q) as [A _]. destruct (A x Hx) as (E1 & ed & B). apply in_enumerate in Hi. rewrite E1. exists u, ed. auto.
  - rewrite concat_map. pose proof (mapM_some_map _ (map (@fst (nat * nat) num)) _ _ E) as E2. cbv beta in E2. unfold enumerate in E2.
    refine (proj1 (mapM_tagged_nodup _ (@fst nat nat) nodes 0 _ E2 _ _)).
    + intros i a e x He Hx. destruct (sum_entries g c (i, a)) as [e0|] eqn:Q; [|discriminate]. inversion He; subst e. apply in_map_iff in Hx as (y & <- & Hy). now apply (Sp i a e0 Q).
    + intros i a e He _. destruct (sum_entries g c (i, a)) as [e0|] eqn:Q; [|discriminate]. inversion He; subst e. now apply (Sp i a e0 Q).
Qed.

Lemma all_layers_cons (P : layer -> Prop) L cs : Forall (fun c => Forall P (all_layers c)) cs -> (all_layers L = L :: concat (map all_layers cs)) -> P L -> Forall P (all_layers L).
Proof.
  intros F E HP. rewrite E. constructor; [exact HP|]. apply Forall_forall. intros x Hx. apply in_concat in Hx as (l & Hl & Hx). apply in_map_iff in Hl as (c & <- & Hc). rewrite Forall_forall in F. specialize (F c Hc). rewrite Forall_forall in F. auto.
Qed.

Lemma sum_solid nodes children c s : Forall good children -> Forall solid children -> NoDup (concat (map c_nodes children)) ->
  create_sum_layer g vars children nodes = Some c -> NoDup nodes ->
  (forall u, In u nodes -> live u /\ fine u /\ scope g u = Some s /\ node_kind g u = Some USum /\ forall e, In e (out_edges g u) -> In (e_dst e) (concat (map c_nodes children))) ->
  solid c.
Proof.
  intros G So N H Nn K. destruct (sum_good domain before after g vars Hvars nodes children c s G N H Nn) as [Gc Ec]. { intros u Hu. destruct (K u Hu) as (_ & A). exact A. }
  unfold create_sum_layer in H. destruct nodes as [|u0 nodes0] eqn:En; [discriminate|]. rewrite <- En in *.
  assert (H0 : In u0 nodes) by (rewrite En; now left). destruct (K u0 H0) as (L0 & F0 & S0 & K0 & C0). rewrite S0 in H.
  destruct (mapM (var_index vars) s) as [vs|] eqn:Evs; [|discriminate]. destruct (same_scope vs children) as [filtered|] eqn:Es; [|discriminate].
  destruct filtered as [|f0 fs] eqn:Ef; [discriminate|]. rewrite <- Ef in *. destruct (mapM (weight_matrix g nodes) filtered) as [ws|] eqn:Ew; [|discriminate]. inversion H; subst c. clear H.
  assert (Sc : StronglySorted lt s /\ incl s vars). { destruct F0 as (t & U & X). destruct (fine_scope domain g vars u0 t) as (s' & E & A & B & _); [exists t; auto|exact U|]. assert (s' = s) by congruence. now subst. } destruct Sc as [Ss Is].
  assert (vs = map (column vars) s) by (pose proof (columns_index vars s Hvars Is); congruence). subst vs.
  destruct (gd_scope _ _ _ _ _ _ Gc) as (s' & Hne' & _ & _ & Ev & Q'). cbn [c_layer c_nodes] in Ev, Q'. specialize (Q' u0 H0). assert (s' = s) by congruence. subst s'. 
  assert (Hcols : map (column vars) s <> []) by (destruct s; [congruence|discriminate]).
  rewrite Forall_forall in G, So.
  destruct (same_scope_spec (map (column vars) s) children filtered) as [Hin Hnd]; [now apply columns_sorted|exact Hcols| |exact Es|].
  { intros c Hc. destruct (gd_scope _ _ _ _ _ c (G c Hc)) as (s' & Hs' & Hst & Hi & -> & _). split; [now apply columns_sorted|]. destruct s'; [congruence|discriminate]. }
  assert (Mat : Forall2 (fun c w => weight_matrix g nodes c = Some w) filtered ws) by now apply mapM_Forall2 in Ew.
  assert (Rows : Forall (fun w => s_rows w = length nodes) ws). { clear -Mat Hwf. induction Mat as [|c w cs ws E F IH]; constructor; auto. now apply (matrix_entries nodes c w). }
  assert (Size : number_of_nodes (LSparse ws (map c_layer filtered)) = length nodes) by (pose proof (gd_size _ _ _ _ _ _ Gc) as X; cbn [c_layer c_nodes] in X; exact X).
  assert (Hws : ws <> []). { intros ->. rewrite Ef in Mat. inversion Mat. }
  assert (Lay : forall P : layer -> Prop, (forall c, In c children -> P (c_layer c)) -> Forall P (map c_layer filtered)). { intros P HP. apply Forall_map. apply Forall_forall. intros c Hc. apply HP. now apply Hin in Hc. }
  assert (Parts : forall k u wcs, nth_error nodes k = Some u -> mapM (fun e => match e_lw e with None => None | Some w => Some (w, e_dst e) end) (out_edges g u) = Some wcs ->
    map (sparse_edges k) ws = map (fun c => flat_map (fun wc => match hash_remap c (snd wc) with None => [] | Some j => [(j, fst wc)] end) wcs) filtered).
  { intros k u wcs Hk Ewcs. clear -Mat Hk Ewcs. induction Mat as [|c w cs ws E F' IH]; [reflexivity|]. cbn [map]. f_equal; [|exact IH]. eapply matrix_edges; eauto. }
  assert (Unit : forall r, r < length nodes -> exists u ts wcs, nth_error nodes r = Some u /\ In u nodes /\ unfolds g u (PSum ts) /\
    mapM (fun e => match e_lw e with None => None | Some w => Some (w, e_dst e) end) (out_edges g u) = Some wcs /\
    map fst wcs = map fst ts /\ forall wc, In wc wcs -> exists e, In e (out_edges g u) /\ e_dst e = snd wc).
  { intros r Hr. apply nth_error_Some in Hr. destruct (nth_error nodes r) as [u|] eqn:Hu; [|congruence]. pose proof (nth_error_In _ _ Hu) as Hi. destruct (K u Hi) as (_ & (t & U & _) & _ & Ku & _).
    inversion U as [u' d Y|u' ts Y Hno F|u' ts Y F]; subst u' t; try congruence. exists u, ts.
    assert (X : exists wcs, mapM (fun e => match e_lw e with None => None | Some w => Some (w, e_dst e) end) (out_edges g u) = Some wcs /\ map fst wcs = map fst ts /\ forall wc, In wc wcs -> exists e, In e (out_edges g u) /\ e_dst e = snd wc).
    { clear -F. induction F as [|e wt es ts [A B] F IH]; [exists []; cbn; repeat split; tauto|]. destruct IH as (wcs & E & X & Z). exists ((fst wt, e_dst e) :: wcs). cbn [mapM]. rewrite A, E. split; [reflexivity|]. split; [cbn; congruence|].
      intros wc [<-|Hwc]; [exists e; cbn; auto|]. destruct (Z wc Hwc) as (e' & ? & ?). exists e'. split; [now right|auto]. }
    destruct X as (wcs & X1 & X2 & X3). exists wcs. auto 8. }
  constructor; cbn [c_layer].
  - cbn [sound]. split; [exact Hws|]. split; [|split; [|split; [split; [|split]|]]].
    + clear -Mat Hwf. induction Mat as [|c w cs ws E F IH]; constructor; auto. destruct (matrix_entries nodes c w E) as (R' & Q & _). rewrite R'. apply Forall_forall. intros e He. destruct (Q e He) as (u & _ & Hu & _). apply nth_error_Some. congruence.
    + destruct ws as [|w ws]; [congruence|]. pose proof (Forall_inv Rows) as R0. cbn. cbn in R0. rewrite R0, En. discriminate.
    + rewrite Size. now apply Forall_map.
    + rewrite Size. intros r Hr. destruct (Unit r Hr) as (u & ts & wcs & Hu & Hi & U & Ewcs & Ef' & Inw). destruct (K u Hi) as (Lu & Fu & Su & Ku & Cu). destruct (Hweights u ts Lu U) as [_ Pos].
      unfold total_weight. rewrite (Parts r u wcs Hu Ewcs).
      destruct (spread filtered (fun c wc => match hash_remap c (snd wc) with None => [] | Some j => [(j, fst wc)] end) (fun b wc => snd b = fst wc) wcs) as (l' & P & R').
      { intros wc Hwc. destruct (Inw wc Hwc) as (e & He & Edst). pose proof (Cu e He) as Hc. apply in_concat in Hc as (l & Hl & Hd). apply in_map_iff in Hl as (c & <- & Hc).
        assert (Hcf : In c filtered). { apply Hin. split; [exact Hc|]. destruct (gd_scope _ _ _ _ _ c (G c Hc)) as (s' & _ & _ & _ & -> & Q). specialize (Q _ Hd). rewrite (sum_child_scope domain g vars u e s Fu Ku Su He) in Q. congruence. }
        rewrite Edst in Hd. destruct (only_one (fun c j => (j, fst wc)) filtered (snd wc) (Hnd N) c Hcf Hd) as (j & Hj & _ & E). rewrite E. eexists. split; [reflexivity|]. reflexivity. }
      rewrite (Rsum_perm _ _ (Permutation_map _ P)). replace (map (fun e => wexp (snd e)) l') with (map (fun wt : num * pc dist => wexp (fst wt)) ts); [exact Pos|].
      rewrite <- (map_map fst wexp), <- Ef', map_map. clear -R'. induction R' as [|b wc l' wcs A R' IH]; [reflexivity|]. cbn. now rewrite A, IH.
    + rewrite Size. intros r Hr. destruct (Unit r Hr) as (u & ts & wcs & Hu & Hi & U & Ewcs & Ef' & Inw). destruct (K u Hi) as (Lu & _). destruct (Hweights u ts Lu U) as [Lw _]. rewrite <- Ef' in Lw. rewrite Forall_map in Lw.
      rewrite (Parts r u wcs Hu Ewcs). assert (Fc : forall c, In c filtered -> In c children) by (intros c Hc; now apply Hin in Hc). clear -Lw Fc G. induction filtered as [|c cs IH]; [constructor|]. cbn [map]. constructor; [|apply IH; intros; apply Fc; now right].
      apply Forall_forall. intros e He. apply in_flat_map in He as (wc & Hwc & He). destruct (hash_remap c (snd wc)) as [j|] eqn:Hj; [|destruct He]. destruct He as [<-|[]]. cbn [fst snd]. rewrite Forall_forall in Lw. split; [now apply Lw|].
      rewrite (gd_size _ _ _ _ _ c (G c (Fc c (or_introl eq_refl)))). now apply (var_index_lt _ (snd wc)).
    + apply fold_and_Forall. rewrite <- Forall_map, map_id. apply Lay. intros c Hc. apply (so_sound _ (So c Hc)).
  - cbn [indexed]. split.
    + clear -Mat Hwf. induction Mat as [|c w cs ws E F IH]; constructor; auto. now apply (matrix_entries nodes c w).
    + apply fold_and_Forall. rewrite <- Forall_map, map_id. apply Lay. intros c Hc. apply (so_indexed _ (So c Hc)).
  - apply (all_layers_cons _ _ (map c_layer filtered)); [|reflexivity|now apply (covered_columns _ s)]. apply Lay. intros c Hc. apply (so_covered _ (So c Hc)).
  - rewrite Ev. cbn [aligned]. apply fold_and_Forall. rewrite <- Forall_map, map_id. apply Forall_map. apply Forall_forall. intros c Hc. apply Hin in Hc as [Hc E]. rewrite <- E. apply (so_aligned _ (So c Hc)).
  - cbn [fits]. apply fold_and_Forall. rewrite <- Forall_map, map_id. apply Lay. intros c Hc. apply (so_fits _ (So c Hc)).
Qed.

(** *** Product layers *)

Lemma insert_sorted e l : StronglySorted (fun a b : nat * nat * nat => fst (fst a) <= fst (fst b)) l -> StronglySorted (fun a b => fst (fst a) <= fst (fst b)) (insert_entry e l).
Proof.
  induction 1 as [|x l Hs IH Hf]; cbn [insert_entry]; [repeat constructor|]. unfold key_le. destruct (Nat.ltb_spec (fst (fst e)) (fst (fst x))) as [Hlt|Hge]; cbn [orb].
  - constructor; [now constructor|]. constructor; [lia|]. rewrite Forall_forall in *. intros y Hy. specialize (Hf y Hy). lia.
  - destruct (Nat.eqb_spec (fst (fst e)) (fst (fst x))) as [He|Hn]; cbn [andb].
    + destruct (snd (fst e) <=? snd (fst x)).
      * constructor; [now constructor|]. constructor; [lia|]. rewrite Forall_forall in *. intros y Hy. specialize (Hf y Hy). lia.
      * constructor; [exact IH|]. apply Forall_forall. intros y Hy. assert (y = e \/ In y l) as [->|Hy'].
        { clear -Hy. revert Hy. induction l as [|z l IH]; cbn [insert_entry]; [intros [<-|[]]; auto|]. destruct (key_le _ _); cbn; [intros [<-|[<-|]]; auto|]. intros [<-|Hy]; auto. destruct (IH Hy); auto. }
        { lia. } { rewrite Forall_forall in Hf. auto. }
    + constructor; [exact IH|]. apply Forall_forall. intros y Hy. assert (y = e \/ In y l) as [->|Hy'].
      { clear -Hy. revert Hy. induction l as [|z l IH]; cbn [insert_entry]; [intros [<-|[]]; auto|]. destruct (key_le _ _); cbn; [intros [<-|[<-|]]; auto|]. intros [<-|Hy]; auto. destruct (IH Hy); auto. }
      { lia. } { rewrite Forall_forall in Hf. auto. }
Qed.

Lemma sort_sorted l : StronglySorted (fun a b : nat * nat * nat => fst (fst a) <= fst (fst b)) (sort_entries l).
Proof. induction l as [|e l IH]; cbn; [constructor|]. now apply insert_sorted. Qed.

Lemma gather_all n s : (forall x, In x s -> x < n) -> mapM (gather (seq 0 n)) s = Some s.
Proof.
  induction s as [|x s IH]; intros H; [reflexivity|]. cbn [mapM]. rewrite IH by (intros; apply H; now right). pose proof (H x (or_introl eq_refl)) as Hx. unfold gather. rewrite seq_length, Nat.min_l by lia.
  rewrite (nth_error_nth' _ 0) by now rewrite seq_length. rewrite seq_nth by exact Hx. reflexivity.
Qed.

Lemma product_solid nodes children c s : Forall good children -> Forall solid children -> NoDup (concat (map c_nodes children)) ->
  create_product_layer g vars children nodes = Some c -> NoDup nodes ->
  (forall u, In u nodes -> live u /\ fine u /\ scope g u = Some s /\ node_kind g u = Some UProd /\ forall e, In e (out_edges g u) -> In (e_dst e) (concat (map c_nodes children))) ->
  (forall d v sv, In d children -> In v (c_nodes d) -> scope g v = Some sv -> incl sv s) ->
  solid c.
Proof.
  intros G So N H Nn K W. destruct (product_good domain before after g vars Hvars nodes children c s G N H Nn) as [Gc _]; [intros u Hu; destruct (K u Hu) as (_ & A); exact A|exact W|].
  unfold create_product_layer, all_product_entries in H. destruct (mapM _ (enumerate nodes)) as [es|] eqn:E; [|discriminate].
  set (entries := concat (map (@concat _) es)) in *. destruct entries as [|x0 xs0] eqn:Ex; [discriminate|]. rewrite <- Ex in *. inversion H; subst c. clear H. rewrite Forall_forall in G, So.
  assert (Cell : forall r u j d e, In u nodes -> In d children -> product_entries g vars (r, u) (j, d) = Some e -> e = flat_map (to_layer j r d) (subcircuits g u)).
  { intros r u j d e Hu Hd He. apply product_entries_spec with (domain := domain) (before := before) (after := after) in He; auto. intros x Hx. destruct (K u Hu) as (_ & Fu & _ & Ku & _). apply in_map_iff in Hx as (ed & <- & Hed).
    pose proof (fine_child domain g vars u ed Fu Hed (or_intror Ku)) as Fe. destruct Fe as (t & U & X). destruct (fine_scope domain g vars (e_dst ed) t) as (s' & A & _); [exists t; auto|exact U|eauto]. }
  assert (Mem : forall x, In x entries -> exists u d y, nth_error nodes (snd (fst x)) = Some u /\ nth_error children (fst (fst x)) = Some d /\ hash_remap d y = Some (snd x)).
  { intros x Hx. unfold entries in Hx. apply in_concat in Hx as (l & Hl & Hx). apply in_map_iff in Hl as (l2 & <- & Hl). destruct (mapM_in _ _ _ l2 E Hl) as ([r u] & Hr & Q). apply in_concat in Hx as (l3 & Hl3 & Hx). destruct (mapM_in _ _ _ l3 Q Hl3) as ([j d] & Hj & Q3).
    pose proof (in_enumerate_in _ _ _ Hr) as Hu. pose proof (in_enumerate_in _ _ _ Hj) as Hd. apply in_enumerate in Hr, Hj. apply Cell in Q3; auto. subst l3. apply in_flat_map in Hx as (y & _ & Hx). unfold to_layer in Hx. destruct (hash_remap d y) as [k|] eqn:Hk; [|destruct Hx]. destruct Hx as [<-|[]]. cbn [fst snd]. exists u, d, y. auto. }
  pose proof (mapM_some_map _ (@concat _) _ _ E) as E1. cbv beta in E1. unfold enumerate at 2 in E1.
  assert (Tag : forall r u j d e x, product_entries g vars (r, u) (j, d) = Some e -> In x e -> fst (fst x) = j /\ snd (fst x) = r).
  { intros r u j d e x He Hx. unfold product_entries in He. cbn [fst snd] in He. destruct (mapM (nth_error vars) _); [|discriminate]. destruct (mapM _ (subcircuits g u)) as [l'|] eqn:M; [|discriminate]. inversion He; subst e. apply in_concat in Hx as (y & Hy & Hx).
    apply mapM_Forall2 in M. clear -M Hy Hx. induction M as [|a b la lb Q F IH]; [destruct Hy|]. destruct Hy as [->|Hy]; [|auto]. destruct (scope g a); [|discriminate]. destruct (scope_eq _ _); [|inversion Q; subst; destruct Hx]. destruct (hash_remap d a); [|discriminate]. inversion Q; subst. destruct Hx as [<-|[]]. auto. }
  assert (Hkeys : NoDup (map fst entries)).
  { unfold entries. rewrite concat_map, map_map.
    pose proof (mapM_some_map _ (map (@fst (nat * nat) nat)) _ _ E1) as E2. cbv beta in E2. rewrite map_map in E2.
    refine (proj1 (mapM_tagged_nodup _ (@snd nat nat) nodes 0 _ E2 _ _)).
    - intros i a e x He Hx. destruct (mapM _ (enumerate children)) as [e'|] eqn:M; [|discriminate]. inversion He; subst e. apply in_map_iff in Hx as (y & <- & Hx). apply in_concat in Hx as (z & Hz & Hx). apply mapM_Forall2 in M. clear -M Hz Hx Tag. revert M. generalize (enumerate children). intros l M.
      induction M as [|[j d] b la lb Q F IH]; [destruct Hz|]. destruct Hz as [->|Hz]; [|auto]. eapply Tag; eauto.
    - intros i a e He Ha. destruct (K a Ha) as (_ & Fa & _ & Ka & _). destruct (mapM _ (enumerate children)) as [e'|] eqn:M; [|discriminate]. inversion He; subst e. clear He.
      pose proof (mapM_some_map _ (map (@fst (nat * nat) nat)) _ _ M) as M2. cbv beta in M2. rewrite concat_map. unfold enumerate in M2.
      refine (proj1 (mapM_tagged_nodup _ (@fst nat nat) children 0 _ M2 _ _)).
      + intros j d e x He Hx. destruct (product_entries g vars (i, a) (j, d)) as [e0|] eqn:P; [|discriminate]. inversion He; subst e. apply in_map_iff in Hx as (y & <- & Hx). eapply Tag; eauto.
      + intros j d e He Hd. destruct (product_entries g vars (i, a) (j, d)) as [e0|] eqn:P; [|discriminate]. inversion He; subst e. apply Cell in P; auto. subst e0.
        pose proof (product_unique domain before after g vars i a j d (G d Hd) Fa Ka) as L. destruct (flat_map _ _) as [|x [|y l]]; cbn in *; [constructor|repeat constructor; auto|lia]. }
  pose proof (edges_perm entries Hkeys) as Pe.
  assert (Full : s = vars). { destruct nodes as [|u0 nodes0]; [destruct (gd_some _ _ _ _ _ _ Gc eq_refl)|]. destruct (K u0 (or_introl eq_refl)) as (Lu & _ & Su & Ku & _). pose proof (Hfull u0 Lu Ku). congruence. }
  destruct (gd_scope _ _ _ _ _ _ Gc) as (s' & Hne' & _ & Is' & Ev & Q'). assert (s' = s). { destruct nodes as [|u0 nodes0]; [destruct (gd_some _ _ _ _ _ _ Gc eq_refl)|]. destruct (K u0 (or_introl eq_refl)) as (Lu & _ & Su & Ku & _). specialize (Q' u0 (or_introl eq_refl)). congruence. } subst s'. cbn [c_layer] in Ev.
  assert (Lay : forall P : layer -> Prop, (forall c, In c children -> P (c_layer c)) -> Forall P (map c_layer children)). { intros P HP. apply Forall_map. apply Forall_forall. exact HP. }
  constructor; cbn [c_layer].
  - cbn [sound s_rows s_entries]. split; [now rewrite map_length|]. split.
    + intros e c He Hc. apply (Permutation_in _ Pe) in He. destruct (Mem e He) as (u & d & y & _ & Hd & Hy). rewrite nth_error_map, Hd in Hc. cbn in Hc. inversion Hc; subst c. rewrite (gd_size _ _ _ _ _ d (G d (nth_error_In _ _ Hd))). now apply (var_index_lt _ y).
    + apply fold_and_Forall. rewrite <- Forall_map, map_id. apply Lay. intros c Hc. apply (so_sound _ (So c Hc)).
  - cbn [indexed s_cols s_entries]. split; [|split; [|split]].
    + eapply Permutation_NoDup; [apply Permutation_map, Permutation_sym, Pe|exact Hkeys].
    + rewrite sum_duplicates_id; [apply sort_sorted|]. eapply Permutation_NoDup; [apply Permutation_map, Permutation_sym, sort_perm|exact Hkeys].
    + intros e He. apply (Permutation_in _ Pe) in He. destruct (Mem e He) as (u & d & y & Hu & Hd & _). rewrite map_length. split; apply nth_error_Some; congruence.
    + apply fold_and_Forall. rewrite <- Forall_map, map_id. apply Lay. intros c Hc. apply (so_indexed _ (So c Hc)).
  - apply (all_layers_cons _ _ (map c_layer children)); [|reflexivity|now apply (covered_columns _ s)]. apply Lay. intros c Hc. apply (so_covered _ (So c Hc)).
  - rewrite Ev, Full, column_all by exact Hvars. cbn [aligned]. apply fold_and_Forall. apply Lay. intros c Hc. exists (variables (c_layer c)). split; [|apply (so_aligned _ (So c Hc))].
    apply gather_all. intros x Hx. pose proof (so_covered _ (So c Hc)) as Cv. assert (Cc : covered (length vars) (c_layer c)) by (destruct (c_layer c); exact (Forall_inv Cv)). unfold covered in Cc. rewrite forallb_forall in Cc. specialize (Cc x Hx). now apply Nat.ltb_lt in Cc.
  - cbn [fits]. apply fold_and_Forall. rewrite <- Forall_map, map_id. apply Lay. intros c Hc. apply (so_fits _ (So c Hc)).
Qed.

Lemma layer_solid t nodes children c s : ready domain before after g vars nodes children -> Forall solid children -> (forall u, In u nodes -> live u) -> create_layer domain before after g vars t children nodes = Some c -> NoDup nodes ->
  (forall u, In u nodes -> has_type g t u /\ scope g u = Some s) -> solid c.
Proof.
  intros [G N Fi B W] So Li H Nn K.
  assert (L : forall u, In u nodes -> t <> TSum -> t <> TProd -> exists d, node_kind g u = Some (ULeaf d) /\ dist_type d = t).
  { intros u Hu A1 A2. destruct (K u Hu) as [(k & Hk & T) _]. destruct k as [d| |]; cbn in T; [eauto|congruence|congruence]. }
  assert (In1 : forall t', create_input_layer domain before after g vars t' nodes = Some c -> t = t' -> t <> TSum -> t <> TProd -> solid c).
  { intros t' H' <- A1 A2. apply (input_solid t nodes c s H' Nn). intros u Hu. split; [auto|]. split; [auto|]. split; [now apply K|]. now apply L. }
  destruct t; cbn [create_layer] in H; try (apply (In1 _ H); congruence).
  - apply (sum_solid nodes children c s G So N H Nn). intros u Hu. split; [auto|]. split; [auto|]. split; [now apply K|]. split; [|intros e He; now apply (B u)]. destruct (K u Hu) as [(k & Hk & T) _]. destruct k as [[]| |]; cbn in T; congruence.
  - apply (product_solid nodes children c s G So N H Nn).
    + intros u Hu. split; [auto|]. split; [auto|]. split; [now apply K|]. split; [|intros e He; now apply (B u)]. destruct (K u Hu) as [(k & Hk & T) _]. destruct k as [[]| |]; cbn in T; congruence.
    + intros d v sv Hd Hv Hs. destruct nodes as [|u nodes']; [cbn in H; discriminate|]. assert (Hu : In u (u :: nodes')) by now left. apply (W u s d v sv Hu); auto; [|now apply K]. destruct (K u Hu) as [(k & Hk & T) _]. destruct k as [[]| |]; cbn in T; congruence.
Qed.
End Solid.

(** ** The whole circuit *)
Section Circuit.
Variable domain : nat -> nat.
Variables before after : R -> R.
Variable g : graph dist.
Variable vars : list nat.
Hypothesis Hvars : StronglySorted lt vars.
Hypothesis Hwf : wf g.
Variable r : id.
Hypothesis Hroot : fine domain g vars r.
Hypothesis Hmention : forall t, unfolds g r t -> forall x, In x vars <-> mentions dist_vars t x.
Hypothesis Hterm : leaves_terminal g.
Variable lv : id -> nat.
Hypothesis Hlv0 : lv r = 0.
Hypothesis Hlv : forall e, In e (g_edges g) -> reach g r (e_src e) -> lv (e_dst e) = S (lv (e_src e)).
Hypothesis Hwide : wide g r.
Hypothesis Hord : orderly g r.

Lemma away_reach u n : away g r u n -> reach g r u.
Proof. induction 1 as [|u n e A IH He Es]; [apply reach_refl|]. now apply (reach_step g r u). Qed.

Lemma away_fine u n : away g r u n -> fine domain g vars u.
Proof. intros A. apply (reach_fine domain g vars r Hroot Hterm). now apply (away_reach u n). Qed.

(** A variable that an inner unit mentions is mentioned by one of its subcircuits. *)
Lemma mention_below u n t x : away g r u n -> unfolds g u t -> (~ exists d, t = PLeaf d) -> mentions dist_vars t x -> exists v t', away g r v (S n) /\ unfolds g v t' /\ mentions dist_vars t' x.
Proof.
  intros A U Nl M. inversion U as [u' d Y|u' ts Y Hno F|u' ts Y F]; subst u' t; [exfalso; eauto| |].
  - assert (exists e w t, In e (out_edges g u) /\ In (w, t) ts /\ unfolds g (e_dst e) t /\ mentions dist_vars t x) as (e & _ & t & He & _ & Ut & Mt).
    { cbn [mentions] in M. clear -F M. induction F as [|e [w t] es ts [Q1 Q2] F IH]; [destruct M|]. destruct M as [M|M]; [exists e, w, t; cbn; auto|]. destruct (IH M) as (e' & w' & t' & ? & ? & ? & ?). exists e', w', t'. cbn. auto. }
    apply out_edges_In in He as [He1 He2]. exists (e_dst e), t. split; [now apply (away_step g r u n e)|auto].
  - assert (exists e t, In e (out_edges g u) /\ unfolds g (e_dst e) t /\ mentions dist_vars t x) as (e & t & He & Ut & Mt).
    { cbn [mentions] in M. clear -F M. induction F as [|e t es ts Q2 F IH]; [destruct M|]. destruct M as [M|M]; [exists e, t; cbn; auto|]. destruct (IH M) as (e' & t' & ? & ? & ?). exists e', t'. cbn. auto. }
    apply out_edges_In in He as [He1 He2]. exists (e_dst e), t. split; [now apply (away_step g r u n e)|auto].
Qed.

(** As long as there are units at a distance, they mention all variables. *)
Lemma level_covers n : forall u, away g r u n -> forall x, In x vars -> exists v t, away g r v n /\ unfolds g v t /\ mentions dist_vars t x.
Proof.
  induction n as [|n IH]; intros u A x Hx.
  - destruct Hroot as (t & U & _). exists r, t. split; [constructor|]. split; [exact U|]. now apply (Hmention t).
  - inversion A as [|p n' e Ap He Es]; subst. destruct (IH _ Ap x Hx) as (v & t & Av & Uv & Mv). apply (mention_below v n t x Av Uv); [|exact Mv].
    destruct (away_fine _ _ Ap) as (tp & Up & _). pose proof (or_leaves g r Hord _ v n tp t Ap Av Up Uv) as B. intros L. apply B in L as (d & ->). inversion Up as [u' d' Y| |]; subst. exact (Hterm e d He Y).
Qed.

Lemma product_full u : reach g r u -> node_kind g u = Some UProd -> scope g u = Some vars.
Proof.
  intros Hu Ku. pose proof (reach_away g r lv Hlv0 Hlv u Hu) as A. pose proof (away_fine _ _ A) as Fu. pose proof Fu as (t & U & _ & _ & _ & Mv). destruct (fine_scope domain g vars u t Fu U) as (s & E & Ss & Is & Q). rewrite E. f_equal.
  apply sorted_lt_ext; auto. intros x. split; [apply Is|]. intros Hx. apply Q.
  destruct (or_vars g r Hord u _ t A U) as (y & My). destruct (mention_below u _ t y A U) as (v & t' & Av & _); [intros (d & ->); inversion U; congruence|exact My|].
  destruct (level_covers _ v Av x Hx) as (w & tw & Aw & Uw & Mw). exact (Hwide u w _ t tw Ku A Aw U Uw x Mw).
Qed.

Variable env : nat -> R.
Hypothesis Hdist : forall u d, reach g r u -> node_kind g u = Some (ULeaf d) -> dist_ok d.
Hypothesis Hweights : forall u ts, reach g r u -> unfolds g u (PSum ts) -> Forall lw_ok (map fst ts) /\ (0 < Rsum (map (fun wt => wexp (fst wt)) ts))%R.
Hypothesis Henv : forall u v p, reach g r u -> node_kind g u = Some (ULeaf (DSym v p)) -> exists k, env (column vars v) = INR k /\ k < domain v.

Lemma from_depth_solid o : (forall k, permutes (type_order o k)) -> (forall k t, permutes (scope_order o k t)) ->
  forall ls depth k cs, levels_ok lv k ls -> (forall x, In x (concat ls) -> reach g r x) ->
  (forall x e, In x (concat ls) -> In e (out_edges g x) -> In (e_dst e) (concat ls)) -> NoDup (concat ls) ->
  from_depth domain before after o g vars depth ls = Some cs -> Forall (solid vars env) cs.
Proof.
  intros Pt Ps. induction ls as [|nodes ls IH]; intros depth k cs Hl Hr Hc Hn H; [cbn [from_depth] in H; inversion H; subst; constructor|].
  pose proof H as H0. cbn [from_depth] in H.
  destruct (from_depth domain before after o g vars (S depth) ls) as [children|] eqn:E; [|discriminate]. cbn [levels_ok concat] in *. destruct Hl as [Hl1 Hl2]. destruct (NoDup_app_inv _ _ Hn) as (N1 & N2 & N3).
  assert (Below : forall x e, In x (nodes ++ concat ls) -> In e (out_edges g x) -> lv (e_dst e) = S (lv x)).
  { intros x e Hx He. apply out_edges_In in He as [He1 He2]. subst x. apply Hlv; auto. }
  assert (Hr' : forall x, In x (concat ls) -> reach g r x) by (intros x Hx; apply Hr; apply in_or_app; auto).
  assert (Hc' : forall x e, In x (concat ls) -> In e (out_edges g x) -> In (e_dst e) (concat ls)).
  { intros x e Hx He. assert (Hx' : In x (nodes ++ concat ls)) by (apply in_or_app; auto). pose proof (Hc x e Hx' He) as Hd. apply in_app_or in Hd as [Hd|Hd]; [|exact Hd]. pose proof (levels_ok_ge lv ls (S k) x Hl2 Hx). pose proof (Below x e Hx' He) as B. rewrite (Hl1 _ Hd) in B. lia. }
  pose proof (IH (S depth) (S k) children Hl2 Hr' Hc' N2 E) as So.
  destruct (from_depth_good domain before after g vars Hvars r Hroot Hterm lv Hlv0 Hlv Hwide o Pt Ps ls (S depth) (S k) children Hl2 Hr' Hc' N2 E) as [G P].
  assert (Head : forall v, In v (concat (map c_nodes children)) -> In v (hd [] ls)) by (intros v Hv; exact (Permutation_in _ P Hv)).
  assert (Headc : forall v, In v (hd [] ls) -> In v (concat ls)) by (intros v; destruct ls; cbn; [tauto|intros; apply in_or_app; auto]).
  assert (Rd : ready domain before after g vars nodes children).
  { constructor.
    + exact G.
    + apply (Permutation_NoDup (Permutation_sym P)). destruct ls; cbn in *; [constructor|]. now destruct (NoDup_app_inv _ _ N2).
    + intros u Hu. apply (reach_fine domain g vars r Hroot Hterm). apply Hr. apply in_or_app. auto.
    + intros u e Hu He. assert (Hu' : In u (nodes ++ concat ls)) by (apply in_or_app; auto). apply (Permutation_in _ (Permutation_sym P)). pose proof (Hc u e Hu' He) as Hd. pose proof (Below u e Hu' He) as B. rewrite (Hl1 u Hu) in B.
      apply in_app_or in Hd as [Hd|Hd]; [rewrite (Hl1 _ Hd) in B; lia|]. now apply (levels_head r lv Hlv0 ls (S k)).
    + intros u s d v sv Hu Ku Su Hd Hv Sv. rewrite (product_full u) in Su; [|apply Hr; apply in_or_app; auto|exact Ku]. inversion Su; subst s. assert (Hrv : reach g r v) by (apply Hr'; apply Headc, Head; apply in_concat; exists (c_nodes d); split; [now apply in_map|exact Hv]).
      pose proof (reach_fine domain g vars r Hroot Hterm v Hrv) as Fv. pose proof Fv as (t' & U' & _). destruct (fine_scope domain g vars v t' Fv U') as (s2 & A2 & _ & I2 & _). assert (s2 = sv) by congruence. now subst s2. }
  assert (Li : forall u, In u nodes -> reach g r u) by (intros u Hu; apply Hr; apply in_or_app; auto).
  apply (depth_every domain before after g vars (solid vars env) (type_order o depth) (scope_order o depth) nodes children cs); auto; [exact (rd_fine _ _ _ _ _ _ _ Rd)|].
  intros t nodes' s c I' Nn K C.
  apply (layer_solid domain before after g vars Hvars Hwf (reach g r) Hdist Hweights product_full env Henv t nodes' children c s); auto. now apply (ready_incl domain before after g vars nodes).
Qed.
End Circuit.
