(** * JaxToNxFacts: the circuits written by to_nx *)
From Coq Require Import List Arith Bool Lia Permutation Sorted Reals Lra ZArith.
From Verif Require Import Num Graph GraphFacts Spec SpecFacts Circuit EvalFacts VarFacts Interval Dist Simplify SimplifyFacts NormalizeFacts MountTree BayesNet
  JaxLayer JaxLayerFacts JaxSpec JaxMeaning RegionCircuit JaxToNx.
Import ListNotations.
Local Set Bullet Behavior "Strict Subproofs".
Local Open Scope nat_scope.

Notation ngraph := (graph dist).
Definition nsize (g : ngraph) : nat := length (g_nodes g).

(** Units are numbered from 0 on and edges join units. *)
Definition numbered (g : ngraph) : Prop :=
  node_ids g = seq 0 (nsize g) /\ forall e, In e (g_edges g) -> e_src e < nsize g /\ e_dst e < nsize g.

(** [g'] has new units and edges; those of [g] are as before. *)
Record extends (g g' : ngraph) : Prop := mkExt {
  ex_num : numbered g';
  ex_size : nsize g <= nsize g';
  ex_kind : forall u, u < nsize g -> node_kind g' u = node_kind g u;
  ex_out : forall u, u < nsize g -> out_edges g' u = out_edges g u;
  ex_new : forall e, In e (g_edges g') -> nsize g <= e_src e -> nsize g <= e_dst e }.

Lemma extends_refl g : numbered g -> extends g g.
Proof. intros H. constructor; auto. intros e He Hs. apply H in He. lia. Qed.

Lemma extends_trans g g' g'' : extends g g' -> extends g' g'' -> extends g g''.
Proof.
  intros [N1 S1 K1 O1 F1] [N2 S2 K2 O2 F2]. constructor; auto; [lia| | |]; [intros u Hu; rewrite K2, K1; auto; lia|intros u Hu; rewrite O2, O1; auto; lia|].
  intros e He Hs. destruct (Nat.lt_ge_cases (e_src e) (nsize g')) as [X|X]; [|pose proof (F2 e He X); lia]. apply F1; [|exact Hs]. assert (Y : In e (out_edges g'' (e_src e))) by (apply filter_In; split; [exact He|apply Nat.eqb_refl]). rewrite (O2 _ X) in Y. apply filter_In in Y. tauto.
Qed.

Lemma reach_bound g u x : numbered g -> u < nsize g -> reach g u x -> x < nsize g.
Proof. intros [_ N] Hu Hr. induction Hr as [|v e Hv IH He Hs]; [exact Hu|]. now apply N. Qed.

Lemma extends_unfolds g g' u t : numbered g -> extends g g' -> u < nsize g -> unfolds g u t -> unfolds g' u t.
Proof. intros N [_ _ K O _] Hu H. apply (unfolds_agree g); [exact H|]. intros x Hx. assert (x < nsize g) by (eapply reach_bound; eauto). auto. Qed.

(** What a conversion of a layer leaves behind. *)
Definition converted (g g' : ngraph) (ids : list id) (m : nat) (t : nat -> pc dist) : Prop :=
  extends g g' /\ NoDup ids /\ length ids = m /\ (forall u, In u ids -> nsize g <= u < nsize g') /\
  forall r, r < m -> unfolds g' (nth r ids 0) (t r).

Lemma nth_error_combine_seq {A} (l : list A) s r x : nth_error l r = Some x -> In (s + r, x) (combine (seq s (length l)) l).
Proof.
  revert s r. induction l as [|a l IH]; intros s [|r] H; cbn in *; try discriminate.
  - inversion H. left. f_equal. lia.
  - right. replace (s + S r) with (S s + r) by lia. now apply IH.
Qed.

Lemma map_fst_combine {A B} (a : list A) (b : list B) : length a = length b -> map fst (combine a b) = a.
Proof. revert b. induction a as [|x a IH]; intros [|y b] H; cbn in *; try discriminate; [reflexivity|]. f_equal. apply IH. congruence. Qed.

Lemma add_units_spec ks g : numbered g -> let '(g', ids) := add_units ks g in
  extends g g' /\ ids = seq (nsize g) (length ks) /\ nsize g' = nsize g + length ks /\
  (forall r k, nth_error ks r = Some k -> node_kind g' (nsize g + r) = Some k) /\ (forall u, nsize g <= u -> out_edges g' u = []).
Proof.
  intros [N E]. cbn [add_units]. fold (nsize g).
  assert (Hid : map fst (combine (seq (nsize g) (length ks)) ks) = seq (nsize g) (length ks)) by (apply map_fst_combine; apply seq_length).
  set (g' := mkGraph (g_nodes g ++ combine (seq (nsize g) (length ks)) ks) (g_edges g)).
  assert (Hs : nsize g' = nsize g + length ks) by (unfold nsize, g'; cbn; rewrite app_length, combine_length, seq_length, Nat.min_id; reflexivity).
  assert (Hids : node_ids g' = seq 0 (nsize g')) by (rewrite Hs; change (node_ids g') with (map fst (g_nodes g ++ combine (seq (nsize g) (length ks)) ks)); rewrite map_app; etransitivity; [apply f_equal2; [exact N|exact Hid]|]; symmetry; apply (seq_app (nsize g) (length ks) 0)).
  assert (Hnum : numbered g') by (split; [exact Hids|]; intros e He; apply E in He; lia).
  assert (Hnd : NoDup (node_ids g')) by (rewrite Hids; apply seq_NoDup).
  split; [constructor; [exact Hnum|lia| |reflexivity|intros e He Hsrc; apply E in He; lia]|split; [reflexivity|split; [exact Hs|split]]].
  - intros u Hu. destruct (node_kind_complete g u) as (k & Hk); [rewrite N; apply in_seq; lia|]. rewrite Hk. apply node_kind_NoDup; [exact Hnd|]. unfold g'. cbn. apply in_or_app. left. now apply node_kind_In.
  - intros r k Hk. apply node_kind_NoDup; [exact Hnd|]. unfold g'. cbn. apply in_or_app. right. now apply nth_error_combine_seq.
  - intros u Hu. unfold out_edges, g'. cbn. apply RegionInv.filter_none. intros e He. apply E in He. apply Nat.eqb_neq. lia.
Qed.

(** ** Input layers *)
Lemma nth_error_combine {A B} (a : list A) (b : list B) r da db : r < length a -> r < length b -> nth_error (combine a b) r = Some (nth r a da, nth r b db).
Proof. revert b r. induction a as [|x a IH]; intros [|y b] [|r] Ha Hb; cbn in *; try lia; [reflexivity|]. apply IH; lia. Qed.

Lemma softmax_item row p : Forall lw_ok row -> (0 < Rsum (map wexp row))%R -> lw_ok p ->
  match nexp (nsub p (logsumexp row)) with Fin x => x | _ => 0%R end = (wexp p / Rsum (map wexp row))%R.
Proof.
  intros H1 H2 Hp. destruct (logsumexp_weights row H1 H2) as (z & -> & Ez). rewrite <- Ez. destruct p; try destruct Hp; cbn.
  - unfold Rdiv. now rewrite Rmult_0_l.
  - unfold Rminus, Rdiv. now rewrite exp_plus, exp_Ropp.
Qed.

Lemma leaves_spec v i r : input_sound i -> r < input_nodes i -> nth_error (leaves v i) r = Some (input_dist v i r).
Proof.
  intros Hs Hr. destruct i as [loc ls ms|ps|is|loc cap]; cbn [leaves input_dist input_sound input_nodes] in *; rewrite nth_error_map.
  - destruct Hs as [H1 H2]. rewrite (nth_error_combine _ _ r 0%R 0%R); [|exact Hr|rewrite map_length, combine_length; lia]. cbn [option_map fst snd]. do 2 f_equal.
    rewrite (nth_indep _ 0%R ((fun lm => (exp (fst lm) + snd lm)%R) (0, 0)%R)) by (rewrite map_length, combine_length; lia). rewrite (map_nth (fun lm => (exp (fst lm) + snd lm)%R)), combine_nth by lia. reflexivity.
  - rewrite nth_error_map, (nth_error_nth' _ []) by exact Hr. cbn [option_map]. do 2 f_equal. set (row := nth r ps []). assert (Hrow : In row ps) by (apply nth_In; exact Hr). destruct (Hs row Hrow) as [H1 H2]. unfold normalized_log_probabilities at 1. rewrite map_length. f_equal.
    unfold softmax, normalized_log_probabilities. rewrite map_map. apply map_ext_in. intros p Hp. apply softmax_item; auto. rewrite Forall_forall in H1. auto.
  - rewrite (nth_error_nth' _ (0, 0)%R) by exact Hr. reflexivity.
  - rewrite (nth_error_combine _ _ r 0%R NaN) by lia. reflexivity.
Qed.

Lemma leaves_length v i : input_sound i -> length (leaves v i) = input_nodes i.
Proof.
  intros Hs. destruct i as [loc ls ms|ps|is|loc cap]; cbn [leaves input_sound input_nodes] in *; rewrite map_length, ?map_length, ?combine_length, ?map_length, ?combine_length; lia.
Qed.

(** ** Adding edges *)
Definition add_all (l : list (id * id * option num)) (g : ngraph) : ngraph := fold_left (fun g a => add_edge g (fst (fst a)) (snd (fst a)) (snd a)) l g.
Definition edges_of (l : list (id * id * option num)) : list edge := map (fun a => mkEdge (fst (fst a)) (snd (fst a)) (snd a)) l.

Lemma add_all_fresh l : forall g, NoDup (map fst l) -> (forall e a, In e (g_edges g) -> In a l -> (e_src e, e_dst e) <> fst a) ->
  add_all l g = mkGraph (g_nodes g) (g_edges g ++ edges_of l).
Proof.
  induction l as [|[[u v] lw] l IH]; intros g Hn Hf; cbn.
  - rewrite app_nil_r. now destruct g.
  - inversion Hn as [|? ? N1 N2]; subst. rewrite add_edge_fresh.
    + rewrite IH; auto; cbn [g_nodes g_edges]; [now rewrite <- app_assoc|]. intros e a He Ha. apply in_app_or in He. destruct He as [He|[<-|[]]]; [apply Hf; [exact He|now right]|]. cbn. intros X. apply N1. apply in_map_iff. exists a. auto.
    + intros e He [E1 E2]. apply (Hf e (u, v, lw) He (or_introl eq_refl)). cbn. congruence.
Qed.

Lemma foldM_connect units child l : forall g, (forall e, In e l -> fst (fst e) < length units /\ snd (fst e) < length child) ->
  foldM (connect units child) l g = Some (add_all (map (fun e => (nth (fst (fst e)) units 0, nth (snd (fst e)) child 0, snd e)) l) g).
Proof.
  induction l as [|e l IH]; intros g H; [reflexivity|]. cbn [foldM map]. unfold connect at 1. destruct (H e (or_introl eq_refl)) as [H1 H2]. rewrite (nth_error_nth' units 0 H1), (nth_error_nth' child 0 H2). rewrite IH; [reflexivity|]. intros e' He'. apply H. now right.
Qed.

Definition flat_sum (units : list id) (ac : list (list (nat * nat * option num) * list id)) : list (id * id * option num) :=
  concat (map (fun ac => map (fun e => (nth (fst (fst e)) units 0, nth (snd (fst e)) (snd ac) 0, snd e)) (fst ac)) ac).

Lemma sum_edges_flat units additions children g :
  (forall a c e, In (a, c) (combine additions children) -> In e a -> fst (fst e) < length units /\ snd (fst e) < length c) ->
  sum_edges units additions children g = Some (add_all (flat_sum units (combine additions children)) g).
Proof.
  unfold sum_edges, flat_sum. revert g. induction (combine additions children) as [|[a c] l IH]; intros g H; [reflexivity|]. cbn [foldM map concat fst snd].
  rewrite foldM_connect by (intros e He; apply (H a c e); [now left|exact He]). rewrite IH by (intros a' c' e' H1 H2; apply (H a' c' e'); [now right|exact H2]). unfold add_all. now rewrite fold_left_app.
Qed.

Definition flat_prod (units : list id) (edges : sparse nat) (children : list (list id)) : list (id * id * option num) :=
  map (fun e => (nth (snd (fst e)) units 0, nth (snd e) (nth (fst (fst e)) children []) 0, None)) (s_entries edges).

Lemma product_edges_flat units edges children g :
  (forall e, In e (s_entries edges) -> fst (fst e) < length children /\ snd (fst e) < length units /\ snd e < length (nth (fst (fst e)) children [])) ->
  product_edges units edges children g = Some (add_all (flat_prod units edges children) g).
Proof.
  unfold product_edges, flat_prod. revert g. induction (s_entries edges) as [|e l IH]; intros g H; [reflexivity|]. cbn [foldM map]. destruct (H e (or_introl eq_refl)) as (H1 & H2 & H3). rewrite (nth_error_nth' children [] H1). unfold connect. cbn [fst snd]. rewrite (nth_error_nth' units 0 H2). pose proof (nth_error_nth' (nth (fst (fst e)) children []) 0 H3) as Z. unfold id in *. cbn [fst snd]. rewrite Z. rewrite IH; [reflexivity|]. intros e' He'. apply H. now right.
Qed.

(** Edges from units without edges. *)
Lemma add_all_extends g0 g l m : extends g0 g -> numbered g0 -> (forall u, nsize g0 <= u < nsize g0 + m -> out_edges g u = []) -> nsize g0 + m <= nsize g -> NoDup (map fst l) ->
  (forall a, In a l -> nsize g0 <= fst (fst a) < nsize g0 + m /\ nsize g0 <= snd (fst a) < nsize g) ->
  add_all l g = mkGraph (g_nodes g) (g_edges g ++ edges_of l) /\ extends g0 (add_all l g) /\ nsize (add_all l g) = nsize g /\
  (forall u, node_kind (add_all l g) u = node_kind g u) /\
  (forall u, ~ (nsize g0 <= u < nsize g0 + m) -> out_edges (add_all l g) u = out_edges g u) /\
  (forall u, nsize g0 <= u < nsize g0 + m -> out_edges (add_all l g) u = filter (fun e => e_src e =? u) (edges_of l)).
Proof.
  intros [N Sz K O F] N0 He Hm Hn Hl.
  assert (E : add_all l g = mkGraph (g_nodes g) (g_edges g ++ edges_of l)).
  { apply add_all_fresh; [exact Hn|]. intros e a H1 H2 X. destruct (Hl a H2) as [Y _]. destruct a as [[a1 a2] a3]. cbn [fst snd] in X, Y. inversion X; subst a1 a2. assert (Z : In e (out_edges g (e_src e))) by (apply filter_In; split; [exact H1|apply Nat.eqb_refl]). rewrite (He _ Y) in Z. destruct Z. }
  rewrite E. assert (Hout : forall u, out_edges (mkGraph (g_nodes g) (g_edges g ++ edges_of l)) u = out_edges g u ++ filter (fun e => e_src e =? u) (edges_of l)) by (intros u; unfold out_edges; cbn; apply filter_app).
  assert (Hno : forall u, ~ (nsize g0 <= u < nsize g0 + m) -> filter (fun e => e_src e =? u) (edges_of l) = []).
  { intros u Hu. apply RegionInv.filter_none. intros e Hx. unfold edges_of in Hx. apply in_map_iff in Hx. destruct Hx as (a & <- & Ha). cbn. apply Nat.eqb_neq. intros X. apply Hu. rewrite <- X. now apply Hl. }
  split; [reflexivity|]. split; [|split; [reflexivity|split; [reflexivity|split]]].
  - constructor.
    + destruct N as [N1 N2]. split; [exact N1|]. cbn [g_edges]. intros e Hx. apply in_app_or in Hx. destruct Hx as [Hx|Hx]; [now apply N2|]. apply in_map_iff in Hx. destruct Hx as (a & <- & Ha). cbn [e_src e_dst]. destruct (Hl a Ha) as [X1 X2]. unfold id in *. change (nsize (mkGraph (g_nodes g) (g_edges g ++ edges_of l))) with (nsize g). lia.
    + exact Sz.
    + exact K.
    + intros u Hu. rewrite Hout, Hno by lia. rewrite app_nil_r. auto.
    + cbn [g_edges]. intros e Hx Hs. apply in_app_or in Hx. destruct Hx as [Hx|Hx]; [now apply F|]. apply in_map_iff in Hx. destruct Hx as (a & <- & Ha). cbn [e_src e_dst] in *. now apply Hl.
  - intros u Hu. rewrite Hout, Hno by exact Hu. apply app_nil_r.
  - intros u Hu. rewrite Hout, He by exact Hu. reflexivity.
Qed.

(** ** Child layers *)
Definition layer_ok (f : ngraph -> option (ngraph * list id)) (m : nat) (t : nat -> pc dist) : Prop :=
  forall g, numbered g -> exists g' ids, f g = Some (g', ids) /\ converted g g' ids m t.

Lemma all_to_nx_ok fs : forall ms ts g, numbered g -> Forall2 (fun f mt => layer_ok f (fst mt) (snd mt)) fs (combine ms ts) -> length ms = length ts ->
  exists g' idss, all_to_nx fs g = Some (g', idss) /\ extends g g' /\ NoDup (concat idss) /\ (forall u, In u (concat idss) -> nsize g <= u < nsize g') /\
  Forall2 (fun ids mt => length ids = fst mt /\ forall r, r < fst mt -> unfolds g' (nth r ids 0) (snd mt r)) idss (combine ms ts).
Proof.
  induction fs as [|f fs IH]; intros ms ts g N H Hlen.
  - inversion H. exists g, []. split; [reflexivity|]. split; [now apply extends_refl|]. split; [constructor|]. split; [intros u []|constructor].
  - destruct ms as [|m ms], ts as [|t ts]; cbn in H, Hlen; inversion H as [|? ? ? ? H1 H2]; subst. cbn [fst snd] in H1. destruct (H1 g N) as (g1 & ids & E1 & X1 & ND1 & L1 & B1 & U1). cbn [all_to_nx]. rewrite E1.
    destruct (IH ms ts g1) as (g2 & idss & E2 & X2 & ND2 & B2 & U2); [apply X1|exact H2|congruence|]. rewrite E2. exists g2, (ids :: idss). split; [reflexivity|]. pose proof (ex_size _ _ X1). pose proof (ex_size _ _ X2). split; [eapply extends_trans; eauto|]. split; [|split].
    + cbn. apply NoDup_app_intro; auto. intros u Hu1 Hu2. apply B1 in Hu1. apply B2 in Hu2. lia.
    + cbn. intros u Hu. apply in_app_or in Hu. destruct Hu as [Hu|Hu]; [apply B1 in Hu|apply B2 in Hu]; lia.
    + constructor; [|exact U2]. cbn [fst snd]. split; [exact L1|]. intros r Hr. apply (extends_unfolds g1 g2); auto; [apply X1|]. apply B1. apply nth_In. unfold id in *. rewrite L1. exact Hr.
Qed.

(** ** Sum layers *)
Lemma disjoint_of_NoDup {A} (x y : list A) v : NoDup (x ++ y) -> In v x -> In v y -> False.
Proof. induction x as [|u x IH]; intros N H1 H2; [destruct H1|]. cbn in N. inversion N as [|? ? N1 N2]; subst. destruct H1 as [->|H1]; [apply N1, in_or_app; now right|auto]. Qed.

Lemma seq_nth_base base m r : r < m -> nth r (seq base m) 0 = base + r.
Proof. intros H. now apply seq_nth. Qed.

Lemma nth_inj {A} (l : list A) d i j : NoDup l -> i < length l -> j < length l -> nth i l d = nth j l d -> i = j.
Proof. intros N. apply NoDup_nth. exact N. Qed.

(** The pairs of a sum layer's edges are different. *)
Lemma flat_sum_NoDup base m acs : NoDup (concat (map snd acs)) ->
  (forall a c e, In (a, c) acs -> In e a -> fst (fst e) < m /\ snd (fst e) < length c) ->
  (forall a c, In (a, c) acs -> NoDup (map fst a)) ->
  NoDup (map fst (flat_sum (seq base m) acs)).
Proof.
  unfold flat_sum. induction acs as [|[a c] acs IH]; intros Hn Hb Hd; cbn; [constructor|]. cbn in Hn. rewrite map_app. apply NoDup_app_intro.
  - rewrite map_map. cbn [fst]. assert (Hc : NoDup c) by (clear -Hn; induction c as [|x c IH]; [constructor|]; cbn in Hn; inversion Hn; subst; constructor; auto; intros X; match goal with H : ~ In _ _ |- _ => apply H, in_or_app; now left end).
    assert (Ha := Hd a c (or_introl eq_refl)). assert (Hb' : forall e, In e a -> fst (fst e) < m /\ snd (fst e) < length c) by (intros e He; apply (Hb a c e); [now left|exact He]). clear -Ha Hb' Hc. induction a as [|e a IH]; cbn; [constructor|]. cbn in Ha. inversion Ha as [|? ? N1 N2]; subst. constructor; [|apply IH; [exact N2|intros; apply Hb'; now right]].
    intros X. apply in_map_iff in X. destruct X as (e' & E & He'). inversion E as [[E1 E2]]. destruct (Hb' e (or_introl eq_refl)) as [B1 B2]. destruct (Hb' e' (or_intror He')) as [B3 B4].
    rewrite !seq_nth_base in E1 by assumption. apply nth_inj in E2; auto. apply N1. apply in_map_iff. exists e'. split; [|exact He']. destruct e as [[r1 c1] w1], e' as [[r2 c2] w2]. cbn in *. f_equal; lia.
  - apply IH.
    + clear -Hn. induction c as [|x c IH]; [exact Hn|]. cbn in Hn. inversion Hn. auto.
    + intros a' c' e' H1 H2. apply (Hb a' c' e'); [now right|exact H2].
    + intros a' c' H1. apply (Hd a' c'). now right.
  - intros [u v] H1 H2. rewrite map_map in H1. apply in_map_iff in H1. destruct H1 as (e & E & He). cbn [fst] in E. inversion E; subst u v.
    apply in_map_iff in H2. destruct H2 as (x & Ex & Hx). apply in_concat in Hx. destruct Hx as (l & Hl & Hx). apply in_map_iff in Hl. destruct Hl as ([a' c'] & <- & Hac). cbn [fst snd] in Hx. apply in_map_iff in Hx. destruct Hx as (e' & <- & He'). cbn [fst] in Ex. inversion Ex as [[E1 E2]].
    destruct (Hb a c e (or_introl eq_refl) He) as [_ B2]. destruct (Hb a' c' e' (or_intror Hac) He') as [_ B4].
    assert (X1 : In (nth (snd (fst e)) c 0) c) by (now apply nth_In). assert (X2 : In (nth (snd (fst e)) c 0) (concat (map snd acs))). { apply in_concat. exists c'. split; [apply in_map_iff; now exists (a', c')|]. pose proof (nth_In c' 0 B4) as Z. unfold id in *. rewrite E2 in Z. exact Z. }
    exact (disjoint_of_NoDup _ _ _ Hn X1 X2).
Qed.

Lemma sum_filter base m r : forall ws children, r < m -> Forall (fun w => Forall (fun e => fst (fst e) < m) (s_entries w)) ws ->
  filter (fun e => e_src e =? base + r) (edges_of (flat_sum (seq base m) (combine (map sparse_additions ws) children))) =
  map (fun wv => mkEdge (base + r) (snd wv) (Some (fst wv))) (weighted (map (sparse_edges r) ws) (map (fun ids k => nth k ids 0) children)).
Proof.
  unfold flat_sum, weighted, edges_of. induction ws as [|w ws IH]; intros [|ids children] Hr H; cbn [map combine concat filter]; try reflexivity.
  inversion H as [|? ? H1 H2]; subst. rewrite !map_app, filter_app, IH by assumption. f_equal. clear IH H H2. cbn [fst snd]. unfold sparse_additions, sparse_edges. rewrite !map_map. cbn [fst snd].
  induction (s_entries w) as [|e l IH]; [reflexivity|]. inversion H1 as [|? ? B1 B2]; subst. specialize (IH B2). cbn [map filter]. rewrite seq_nth_base by exact B1. cbn [e_src].
  destruct (fst (fst e) =? r) eqn:E.
  - apply Nat.eqb_eq in E. rewrite E, Nat.eqb_refl. cbn [map fst snd]. f_equal. exact IH.
  - apply Nat.eqb_neq in E. replace (base + fst (fst e) =? base + r) with false by (symmetry; apply Nat.eqb_neq; lia). exact IH.
Qed.

Definition read (g : ngraph) (ids : list id) (c : layer) : Prop := length ids = number_of_nodes c /\ forall r, r < number_of_nodes c -> unfolds g (nth r ids 0) (tree c r).

Lemma children_ok n bar cs g : numbered g -> Forall (fun c => layer_ok (to_nx n bar c) (number_of_nodes c) (tree c)) cs ->
  exists g' idss, all_to_nx (map (to_nx n bar) cs) g = Some (g', idss) /\ extends g g' /\ NoDup (concat idss) /\ (forall u, In u (concat idss) -> nsize g <= u < nsize g') /\
  Forall2 (read g') idss cs.
Proof.
  intros N H. assert (E : combine (map number_of_nodes cs) (map tree cs) = map (fun c => (number_of_nodes c, tree c)) cs) by (clear; induction cs; cbn; congruence).
  destruct (all_to_nx_ok (map (to_nx n bar) cs) (map number_of_nodes cs) (map tree cs) g N) as (g' & idss & H1 & H2 & H3 & H4 & H5).
  - rewrite E. clear -H. induction H; cbn; constructor; auto.
  - now rewrite !map_length.
  - exists g', idss. do 4 (split; [assumption|]). rewrite E in H5. clear -H5. revert idss H5. induction cs as [|c cs IH]; intros idss H5; cbn in H5; inversion H5; subst; constructor; auto.
Qed.

Lemma weighted_rel (P : id -> pc dist -> Prop) parts idss cs :
  Forall2 (fun part (c : layer) => Forall (fun e => lw_ok (snd e) /\ fst e < number_of_nodes c) part) parts cs ->
  Forall2 (fun ids c => forall r, r < number_of_nodes c -> P (nth r ids 0) (tree c r)) idss cs ->
  Forall2 (fun wi wt => fst wi = fst wt /\ P (snd wi) (snd wt)) (weighted parts (map (fun ids k => nth k ids 0) idss)) (weighted parts (map (fun c r' => tree c r') cs)).
Proof.
  unfold weighted. intros H1 H2. revert parts H1. induction H2 as [|ids c idss cs H2 H3 IH]; intros [|part parts] H1; inversion H1 as [|? ? ? ? B1 B2]; subst; cbn [map combine concat]; [constructor|].
  apply Forall2_app; [|now apply IH]. cbn [fst snd]. clear -B1 H2. induction B1 as [|e part [_ B] B1 IH]; cbn [map]; constructor; [split; [reflexivity|apply H2; exact B]|exact IH].
Qed.

Lemma weighted_total {A} parts (vals : list (nat -> A)) : length parts = length vals -> Rsum (map (fun wv => wexp (fst wv)) (weighted parts vals)) = total_weight parts.
Proof.
  intros H. unfold total_weight, weighted. f_equal. revert vals H. induction parts as [|p parts IH]; intros [|v vals] H; cbn in H; try discriminate; [reflexivity|]. cbn [combine map concat]. rewrite !map_app, IH by congruence. f_equal. cbn [fst snd]. rewrite map_map. reflexivity.
Qed.

Lemma weighted_ok {A} parts (vals : list (nat -> A)) : Forall (Forall (fun e => lw_ok (snd e))) parts -> Forall lw_ok (map fst (weighted parts vals)).
Proof.
  intros H. unfold weighted. revert vals. induction H as [|p parts H1 H IH]; intros [|v vals]; cbn [combine map concat]; try constructor. rewrite map_app. apply Forall_app. split; [|apply IH]. cbn [fst snd]. rewrite map_map. cbn [fst]. induction H1; cbn; constructor; auto.
Qed.

Lemma lw_ok_nlog w : lw_ok w -> w = nlog (Fin (wexp w)).
Proof.
  destruct w; cbn; intros H; try destruct H.
  - destruct (total_order_T 0 0) as [[X|X]|X]; try lra. reflexivity.
  - pose proof (exp_pos r). destruct (total_order_T (exp r) 0) as [[X|X]|X]; try lra. now rewrite ln_exp.
Qed.

(** The edges of the units of a sum layer before and after normalisation. *)
Lemma normalized_edges (P : id -> pc dist -> Prop) base l lt (es : list edge) :
  Forall2 (fun wi wt => fst wi = fst wt /\ P (snd wi) (snd wt)) l lt ->
  rescaled (map (fun wv => mkEdge base (snd wv) (Some (fst wv))) l) es -> Forall lw_ok (map fst l) ->
  Forall2 (fun e wt => e_lw e = Some (fst wt) /\ P (e_dst e) (snd wt)) es
    (map (fun wt => (nlog (Fin (wexp (fst wt) / Rsum (map (fun wv => wexp (fst wv)) l))), snd wt)) lt).
Proof.
  intros H1 (c & Hc & H2 & H3) Hok.
  assert (Ec : Rsum (map (fun wv => wexp (fst wv)) l) = c).
  { assert (E : Rsum (map (fun e => match e_lw e with Some w => wexp w | None => 0%R end) es) = (Rsum (map (fun wv => wexp (fst wv)) l) / c)%R).
    { clear -H2. rewrite <- (Rsum_div (fun wv : num * id => wexp (fst wv)) c). f_equal. revert es H2. induction l as [|wv l IH]; intros es H2; cbn [map] in *; inversion H2 as [|? ? ? ? B1 B2]; subst; [reflexivity|]. cbn [map]. rewrite (IH _ B2). destruct B1 as (_ & _ & w & w' & E1 & E2 & _ & E3). cbn in E1. inversion E1; subst. now rewrite E2, E3. }
    rewrite H3 in E. apply (f_equal (fun x => (x * c)%R)) in E. unfold Rdiv in E. rewrite Rmult_assoc, Rinv_l in E by lra. lra. }
  rewrite Ec. clear H3 Ec Hok. revert es H2. induction H1 as [|wi wt l lt [B1 B2] H1 IH]; intros es H2; cbn [map] in *; inversion H2 as [|? e' ? ? B3 B4]; subst; constructor; [|apply IH; exact B4].
  destruct B3 as (_ & E2 & w & w' & E3 & E4 & E5 & E6). cbn in E2, E3. inversion E3; subst w. cbn [fst snd]. rewrite E4, E2. split; [|exact B2]. rewrite <- B1, <- E6. f_equal. now apply lw_ok_nlog.
Qed.

Lemma reach_new g g' u x : extends g g' -> nsize g <= u -> reach g' u x -> nsize g <= x.
Proof. intros H Hu Hr. induction Hr as [|v e Hv IH He Hs]; [exact Hu|]. apply (ex_new _ _ H); [exact He|]. now rewrite Hs. Qed.

(** The children stay as they are while edges of older units change. *)
Lemma read_later g1 g2 g3 ids c : extends g1 g2 -> (forall u, nsize g1 <= u < nsize g2 -> node_kind g3 u = node_kind g2 u /\ out_edges g3 u = out_edges g2 u) ->
  (forall u, In u ids -> nsize g1 <= u < nsize g2) -> read g2 ids c -> read g3 ids c.
Proof.
  intros X H B [L U]. split; [exact L|]. intros r Hr. specialize (U r Hr). assert (Hn : nsize g1 <= nth r ids 0 < nsize g2) by (apply B; apply nth_In; unfold id in *; rewrite L; exact Hr).
  apply (unfolds_agree g2); [exact U|]. intros x Hx. apply H. split; [eapply reach_new; [exact X| |exact Hx]; apply Hn|eapply reach_bound; [apply X| |exact Hx]; apply Hn].
Qed.

Lemma entries_sound m ws : forall cs, 0 < m -> (forall r, r < m -> Forall2 (fun part (c : layer) => Forall (fun e => lw_ok (snd e) /\ fst e < number_of_nodes c) part) (map (sparse_edges r) ws) cs) ->
  Forall (fun w => Forall (fun e => fst (fst e) < m) (s_entries w)) ws ->
  Forall2 (fun w c => forall e, In e (s_entries w) -> fst (fst e) < m /\ snd (fst e) < number_of_nodes c) ws cs.
Proof.
  induction ws as [|w ws IH]; intros cs Hm H1 H2.
  - specialize (H1 0 Hm). inversion H1. constructor.
  - inversion H2 as [|? ? B1 B2]; subst. destruct cs as [|c cs]; [specialize (H1 0 Hm); inversion H1|]. constructor.
    + intros e He. rewrite Forall_forall in B1. pose proof (B1 e He) as B3. split; [exact B3|]. specialize (H1 _ B3). inversion H1 as [|? ? ? ? B4 B5]; subst. rewrite Forall_forall in B4. apply (B4 (snd (fst e), snd e)). unfold sparse_edges. apply in_map_iff. exists e. split; [reflexivity|]. apply filter_In. split; [exact He|apply Nat.eqb_refl].
    + apply IH; auto. intros r Hr. specialize (H1 r Hr). now inversion H1.
Qed.

Lemma combine_In_Forall2 {A B C} (P : A -> C -> Prop) (Q : B -> C -> Prop) a b c x y : Forall2 P a c -> Forall2 Q b c -> In (x, y) (combine a b) -> exists z, P x z /\ Q y z.
Proof. intros H. revert b. induction H as [|x0 z0 a c H1 H IH]; intros b Hb Hin; inversion Hb as [|y0 ? b0 ? B1 B2]; subst; [destruct Hin|]. destruct Hin as [E|Hin]; [inversion E; subst; now exists z0|eauto]. Qed.

Lemma combine_map_l {A B C} (f : A -> B) (a : list A) (b : list C) : combine (map f a) b = map (fun p => (f (fst p), snd p)) (combine a b).
Proof. revert b. induction a as [|x a IH]; intros [|y b]; cbn; auto. now rewrite IH. Qed.

Lemma Forall2_len {A B} (P : A -> B -> Prop) a b : Forall2 P a b -> length a = length b.
Proof. intros H. induction H; cbn; congruence. Qed.

Definition covered (n : nat) (L : layer) : Prop := forallb (fun v => v <? n) (variables L) = true.

Lemma sparse_case n bar ws cs : sound (LSparse ws cs) -> Forall (fun w => NoDup (map fst (s_entries w))) ws -> covered n (LSparse ws cs) ->
  Forall (fun c => layer_ok (to_nx n bar c) (number_of_nodes c) (tree c)) cs ->
  layer_ok (to_nx n bar (LSparse ws cs)) (number_of_nodes (LSparse ws cs)) (tree (LSparse ws cs)).
Proof.
  intros Hs Hnd Hc IH g N. unfold covered in Hc. cbn [to_nx]. rewrite Hc. set (m := number_of_nodes (LSparse ws cs)) in *.
  destruct Hs as (Hne & Hrow & Hpos & (Hrows & Htot & Hparts) & _). fold m in Hrows, Htot, Hparts.
  assert (Hm : 0 < m) by (destruct ws as [|w ws]; [congruence|]; cbn in Hpos; unfold m; cbn; lia).
  assert (Hrow' : Forall (fun w => Forall (fun e => fst (fst e) < m) (s_entries w)) ws).
  { rewrite Forall_map in Hrows. clearbody m. rewrite Forall_forall in *. intros w Hw. rewrite <- (Hrows w Hw). now apply Hrow. }
  pose proof (entries_sound m ws cs Hm Hparts Hrow') as Hent.
  pose proof (add_units_spec (repeat USum m) g N) as HA. destruct (add_units (repeat USum m) g) as [g1 units] eqn:EA. rewrite repeat_length in HA. destruct HA as (X1 & -> & S1 & K1 & O1). clear EA.
  destruct (children_ok n bar cs g1) as (g2 & idss & E2 & X2 & ND2 & B2 & R2); [apply X1|exact IH|]. rewrite E2.
  assert (Xg2 : extends g g2) by (eapply extends_trans; eauto). pose proof (ex_size _ _ X2) as S2.
  set (acs := combine (map sparse_additions ws) idss).
  assert (Hbounds : forall a c e, In (a, c) acs -> In e a -> fst (fst e) < m /\ snd (fst e) < length c).
  { intros a c e H1 H2. unfold acs in H1. rewrite combine_map_l in H1. apply in_map_iff in H1. destruct H1 as ([w ids] & E & H1). cbn [fst snd] in E. inversion E; subst a c.
    destruct (combine_In_Forall2 _ _ _ _ _ _ _ Hent R2 H1) as (c & Q1 & Q2 & _). apply in_map_iff in H2. destruct H2 as (e' & <- & He'). cbn [fst snd]. destruct (Q1 e' He') as [Q3 Q4]. split; [exact Q3|]. unfold id in *. rewrite Q2. exact Q4. }
  rewrite sum_edges_flat; [|intros a c e H1 H2; rewrite seq_length; exact (Hbounds a c e H1 H2)]. fold acs.
  assert (Hlen : length ws = length idss) by (transitivity (length cs); [exact (Forall2_len _ _ _ Hent)|symmetry; exact (Forall2_len _ _ _ R2)]).
  assert (Hin : forall a c, In (a, c) acs -> forall v, In v c -> nsize g1 <= v < nsize g2).
  { intros a c H v Hv. apply B2. apply in_concat. exists c. split; [|exact Hv]. unfold acs in H. now apply in_combine_r in H. }
  assert (Hsub : NoDup (concat (map snd acs))).
  { unfold acs. clear -ND2 Hlen. revert ws Hlen. induction idss as [|ids idss IH]; intros [|w ws] Hlen; try discriminate Hlen; [constructor|]. cbn [map combine concat snd] in *. replace (concat (map snd (combine (map sparse_additions ws) idss))) with (concat idss); [exact ND2|]. f_equal. clear -Hlen. cbn in Hlen. inversion Hlen as [E]. clear Hlen. revert idss E. induction ws as [|w' ws IH]; intros [|i idss] E; try discriminate E; [reflexivity|]. cbn [map combine snd]. f_equal. apply IH. cbn in E. congruence. }
  destruct (add_all_extends g g2 (flat_sum (seq (nsize g) m) acs) m Xg2 N) as (E3 & X3 & S3 & K3 & O3 & O3').
  { intros u Hu. rewrite (ex_out _ _ X2) by lia. apply O1. lia. }
  { lia. }
  { apply flat_sum_NoDup; [exact Hsub|exact Hbounds|]. intros a c H. unfold acs in H. apply in_combine_l in H. apply in_map_iff in H. destruct H as (w & <- & Hw). unfold sparse_additions. rewrite map_map. rewrite Forall_forall in Hnd. apply Hnd. exact Hw. }
  { intros a Ha. unfold flat_sum in Ha. apply in_concat in Ha. destruct Ha as (l & Hl & Ha). apply in_map_iff in Hl. destruct Hl as ([a0 c0] & <- & Hac). cbn [fst snd] in Ha. apply in_map_iff in Ha. destruct Ha as (e & <- & He). cbn [fst snd]. destruct (Hbounds _ _ _ Hac He) as [Q1 Q2]. rewrite seq_nth_base by exact Q1. pose proof (Hin _ _ Hac _ (nth_In _ 0 Q2)) as Q3. unfold id in *. lia. }
  set (g3 := add_all (flat_sum (seq (nsize g) m) acs) g2) in *.
  set (wi := fun r => weighted (map (sparse_edges r) ws) (map (fun ids k => nth k ids 0) idss)).
  assert (Hout : forall r, r < m -> out_edges g3 (nsize g + r) = map (fun wv => mkEdge (nsize g + r) (snd wv) (Some (fst wv))) (wi r)).
  { intros r Hr. rewrite O3' by lia. unfold acs. now apply sum_filter. }
  assert (Hlw : forall r, r < m -> Forall lw_ok (map fst (wi r))).
  { intros r Hr. apply weighted_ok. specialize (Hparts r Hr). clear -Hparts. induction Hparts as [|p c ps cs H1 H2 IH]; constructor; auto. eapply Forall_impl; [|exact H1]. intros e [He _]. exact He. }
  assert (Hsum : forall r, Rsum (map (fun wv => wexp (fst wv)) (wi r)) = total_weight (map (sparse_edges r) ws)).
  { intros r. unfold wi. apply weighted_total. rewrite !map_length. exact Hlen. }
  destruct (normalize_loop (seq (nsize g) m) g3) as (g4 & E4 & Nd4 & Ed4 & R4 & O4).
  { apply seq_NoDup. }
  { intros u Hu. apply in_seq in Hu. pose (r := u - nsize g). assert (Hr : r < m) by (unfold r; lia). replace u with (nsize g + r) by (unfold r; lia).
    exists (map fst (wi r)). split; [|split; [now apply Hlw|]].
    - unfold weights_of. rewrite (Hout r Hr). clear. induction (wi r) as [|x l IH]; [reflexivity|]. cbn [map mapM e_lw]. now rewrite IH.
    - rewrite map_map. rewrite (Hsum r). now apply Htot. }
  unfold normalize_units. rewrite E4. exists g4, (seq (nsize g) m). split; [reflexivity|].
  assert (S4 : nsize g4 = nsize g3) by (unfold nsize; now rewrite Nd4).
  assert (K4 : forall u, node_kind g4 u = node_kind g2 u) by (intros u; rewrite <- K3; unfold node_kind; now rewrite Nd4).
  assert (P4 : forall e, In e (g_edges g4) -> exists e', In e' (g_edges g3) /\ e_src e' = e_src e /\ e_dst e' = e_dst e).
  { intros e He. apply (in_map (fun e => (e_src e, e_dst e))) in He. rewrite Ed4 in He. apply in_map_iff in He. destruct He as (e' & E & He'). inversion E. eauto. }
  assert (X4 : extends g g4).
  { destruct X3 as [[N31 N32] S31 K31 O31 F31]. constructor.
    - split; [unfold node_ids; rewrite Nd4, S4; exact N31|]. intros e He. destruct (P4 e He) as (e' & He' & <- & <-). rewrite S4. now apply N32.
    - lia.
    - intros u Hu. rewrite K4, <- K3. now apply K31.
    - intros u Hu. rewrite O4; [now apply O31|]. rewrite in_seq. lia.
    - intros e He. destruct (P4 e He) as (e' & He' & <- & <-). now apply F31. }
  split; [exact X4|]. split; [apply seq_NoDup|]. split; [apply seq_length|]. split; [intros u Hu; apply in_seq in Hu; lia|].
  intros r Hr. rewrite seq_nth_base by exact Hr.
  assert (R4' : Forall2 (fun ids c => forall k, k < number_of_nodes c -> unfolds g4 (nth k ids 0) (tree c k)) idss cs).
  { assert (Hall : Forall (fun ids => forall u, In u ids -> nsize g1 <= u < nsize g2) idss) by (apply Forall_forall; intros ids Hi u Hu; apply B2; apply in_concat; eauto).
    assert (O3b : forall u, nsize g + m <= u -> out_edges g4 u = out_edges g2 u) by (intros u Hu; rewrite O4 by (rewrite in_seq; lia); apply O3; lia).
    clear -R2 Hall X2 K4 O3b S1. clearbody m. induction R2 as [|ids c idss cs Q1 Q2 IHR]; [constructor|]. inversion Hall as [|? ? A1 A2]; subst. constructor; [|now apply IHR]. apply (read_later g1 g2 g4) with (c := c) in A1; auto; [apply A1|]. intros u Hu. split; [apply K4|]. apply O3b. lia. }
  cbn [tree]. unfold sum_tree. rewrite <- (Hsum r).
  assert (HF : Forall2 (fun wi wt => fst wi = fst wt /\ unfolds g4 (snd wi) (snd wt)) (wi r) (weighted (map (sparse_edges r) ws) (map (fun c r' => tree c r') cs))) by (apply weighted_rel; [now apply Hparts|exact R4']).
  assert (HR := R4 (nsize g + r)). rewrite (Hout r Hr) in HR. specialize (HR ltac:(apply in_seq; lia)).
  pose proof (normalized_edges _ _ _ _ _ HF HR (Hlw r Hr)) as HE.
  apply unf_sum; [|intros Z|exact HE].
  - rewrite K4, (ex_kind _ _ X2) by lia. apply K1. apply nth_error_repeat. exact Hr.
  - rewrite Z in HR. destruct HR as (c & _ & _ & HR). cbn in HR. lra.
Qed.

(** ** Product layers *)
Lemma rows_split {A} (l : list (nat * nat * A)) : StronglySorted (fun a b => fst (fst a) <= fst (fst b)) l -> forall n s, (forall e, In e l -> s <= fst (fst e) < s + n) ->
  l = concat (map (fun k => filter (fun e => fst (fst e) =? k) l) (seq s n)).
Proof.
  intros H n. revert l H. induction n as [|n IH]; intros l H s Hb.
  - destruct l as [|e l]; [reflexivity|]. specialize (Hb e (or_introl eq_refl)). lia.
  - cbn [seq map concat].
    assert (Hsplit : l = filter (fun e => fst (fst e) =? s) l ++ filter (fun e => negb (fst (fst e) =? s)) l).
    { clear IH. induction H as [|e l H1 H3 H2]; [reflexivity|]. cbn [filter]. destruct (fst (fst e) =? s) eqn:E; cbn [negb app].
      - f_equal. apply H3. intros e' He'. apply Hb. now right.
      - assert (Hall : forall e', In e' l -> (fst (fst e') =? s) = false).
        { intros e' He'. rewrite Forall_forall in H2. specialize (H2 e' He'). pose proof (Hb e (or_introl eq_refl)). apply Nat.eqb_neq in E. apply Nat.eqb_neq. lia. }
        rewrite (RegionInv.filter_none (fun e => fst (fst e) =? s) l) by exact Hall. cbn. f_equal. clear -Hall. induction l as [|a l IH]; [reflexivity|]. cbn. rewrite (Hall a (or_introl eq_refl)). cbn. f_equal. apply IH. intros; apply Hall; now right. }
    rewrite Hsplit at 1. f_equal. rewrite (IH (filter (fun e => negb (fst (fst e) =? s)) l)) with (s := S s) at 1.
    + f_equal. apply map_ext_in. intros k Hk. apply in_seq in Hk. clear -Hk. induction l as [|a l IH]; [reflexivity|]. cbn [filter]. destruct (fst (fst a) =? s) eqn:E; cbn [negb filter].
      * apply Nat.eqb_eq in E. replace (fst (fst a) =? k) with false by (symmetry; apply Nat.eqb_neq; lia). exact IH.
      * destruct (fst (fst a) =? k); rewrite IH; reflexivity.
    + clear -H. induction H as [|a l H1 IH H2]; cbn; [constructor|]. destruct (negb _); [|exact IH]. constructor; [exact IH|]. apply Forall_forall. intros x Hx. apply filter_In in Hx. rewrite Forall_forall in H2. now apply H2.
    + intros e He. apply filter_In in He. destruct He as [He He']. specialize (Hb e He). apply negb_true_iff, Nat.eqb_neq in He'. lia.
Qed.

Lemma NoDup_app_l {A} (x y : list A) : NoDup (x ++ y) -> NoDup x.
Proof. induction x as [|u x IH]; intros N; [constructor|]. inversion N as [|? ? N1 N2]; subst. constructor; [intros X; apply N1, in_or_app; now left|auto]. Qed.
Lemma NoDup_app_r {A} (x y : list A) : NoDup (x ++ y) -> NoDup y.
Proof. induction x as [|u x IH]; intros N; [exact N|]. inversion N; auto. Qed.

Lemma filter_concat {A} (f : A -> bool) l : filter f (concat l) = concat (map (filter f) l).
Proof. induction l as [|x l IH]; [reflexivity|]. cbn. now rewrite filter_app, IH. Qed.

Lemma concat_NoDup_nth (cs : list (list nat)) : NoDup (concat cs) -> forall i j x y, x < length (nth i cs []) -> y < length (nth j cs []) ->
  nth x (nth i cs []) 0 = nth y (nth j cs []) 0 -> i = j /\ x = y.
Proof.
  induction cs as [|c cs IH]; intros N i j x y Hx Hy E; [destruct i; cbn in Hx; lia|]. cbn [concat] in N.
  assert (Nc : NoDup c) by (now apply NoDup_app_l in N). assert (Ncs : NoDup (concat cs)) by (now apply NoDup_app_r in N).
  assert (Hin : forall k z, z < length (nth k cs []) -> In (nth z (nth k cs []) 0) (concat cs)).
  { intros k z Hz. apply in_concat. exists (nth k cs []). split; [|now apply nth_In]. apply nth_In. destruct (Nat.lt_ge_cases k (length cs)) as [X|X]; [exact X|]. rewrite nth_overflow in Hz by exact X. cbn in Hz. lia. }
  destruct i as [|i], j as [|j]; cbn [nth] in *.
  - split; [reflexivity|]. now apply nth_inj in E.
  - exfalso. apply (disjoint_of_NoDup c (concat cs) (nth x c 0) N); [now apply nth_In|]. rewrite E. now apply Hin.
  - exfalso. apply (disjoint_of_NoDup c (concat cs) (nth y c 0) N); [now apply nth_In|]. rewrite <- E. now apply Hin.
  - destruct (IH Ncs i j x y Hx Hy E) as [-> ->]. auto.
Qed.

Lemma flat_prod_NoDup base m edges idss : NoDup (map fst (s_entries edges)) -> NoDup (concat idss) ->
  (forall e, In e (s_entries edges) -> snd (fst e) < m /\ snd e < length (nth (fst (fst e)) idss [])) ->
  NoDup (map fst (flat_prod (seq base m) edges idss)).
Proof.
  intros Hn Hc Hb. unfold flat_prod. rewrite map_map. cbn [fst]. induction (s_entries edges) as [|e l IH]; cbn [map]; [constructor|]. cbn [map] in Hn. inversion Hn as [|? ? N1 N2]; subst. constructor; [|apply IH; [exact N2|intros; apply Hb; now right]].
  intros X. apply in_map_iff in X. destruct X as (e' & E & He'). inversion E as [[E1 E2]]. destruct (Hb e (or_introl eq_refl)) as [B1 B2]. destruct (Hb e' (or_intror He')) as [B3 B4].
  rewrite !seq_nth_base in E1 by assumption. destruct (concat_NoDup_nth idss Hc _ _ _ _ B4 B2 E2) as [E3 _]. apply N1. apply in_map_iff. exists e'. split; [|exact He']. destruct e as [[r1 c1] w1], e' as [[r2 c2] w2]. cbn in *. f_equal; lia.
Qed.

Lemma prod_filter base m edges idss r : r < m -> StronglySorted (fun a b => fst (fst a) <= fst (fst b)) (s_entries edges) ->
  (forall e, In e (s_entries edges) -> fst (fst e) < length idss /\ snd (fst e) < m) ->
  filter (fun e => e_src e =? base + r) (edges_of (flat_prod (seq base m) edges idss)) =
  map (fun v => mkEdge (base + r) v None) (concat (map (fun kt => map (snd kt) (prod_edges edges r (fst kt))) (combine (seq 0 (length idss)) (map (fun ids k => nth k ids 0) idss)))).
Proof.
  intros Hr Hs Hb. unfold flat_prod, edges_of, prod_edges.
  transitivity (map (fun e : nat * nat * nat => mkEdge (base + r) (nth (snd e) (nth (fst (fst e)) idss []) 0) None) (filter (fun e => snd (fst e) =? r) (s_entries edges))).
  { rewrite map_map. cbn [fst snd]. assert (Hb' : forall e, In e (s_entries edges) -> snd (fst e) < m) by (intros e He; now apply Hb). clear -Hr Hb'. induction (s_entries edges) as [|e l IH]; [reflexivity|]. cbn [map filter e_src]. rewrite seq_nth_base by (apply Hb'; now left). specialize (IH (fun e He => Hb' e (or_intror He))). destruct (snd (fst e) =? r) eqn:E.
    - apply Nat.eqb_eq in E. rewrite E, Nat.eqb_refl. cbn [map]. f_equal. exact IH.
    - apply Nat.eqb_neq in E. replace (base + snd (fst e) =? base + r) with false by (symmetry; apply Nat.eqb_neq; lia). exact IH. }
  assert (Hc : combine (seq 0 (length idss)) (map (fun ids k => nth k ids 0) idss) = map (fun k => (k, fun j => nth j (nth k idss []) 0)) (seq 0 (length idss))).
  { clear. assert (G : forall (l : list (list nat)) s pre, length pre = s -> combine (seq s (length l)) (map (fun ids k => nth k ids 0) l) = map (fun k => (k, fun j => nth j (nth k (pre ++ l) []) 0)) (seq s (length l))).
    { induction l as [|x l IH]; intros s pre Hp; [reflexivity|]. cbn [length seq map combine]. f_equal.
      - f_equal. rewrite app_nth2, Hp, Nat.sub_diag by lia. reflexivity.
      - rewrite (IH (S s) (pre ++ [x])) by (rewrite app_length; cbn; lia). apply map_ext. intros k. now rewrite <- app_assoc. }
    apply (G idss 0 []). reflexivity. }
  rewrite Hc, map_map. cbn [fst snd]. rewrite concat_map, map_map.
  rewrite (rows_split (s_entries edges) Hs (length idss) 0) at 1 by (intros e He; destruct (Hb e He); lia).
  rewrite filter_concat, map_map, concat_map, map_map. f_equal. apply map_ext_in. intros k Hk. rewrite !map_map.
  clear. induction (s_entries edges) as [|e l IH]; [reflexivity|]. cbn [filter]. destruct (fst (fst e) =? k) eqn:E1; cbn [andb filter]; [|exact IH]. destruct (snd (fst e) =? r) eqn:E2; cbn [map]; [|exact IH]. apply Nat.eqb_eq in E1. rewrite E1. f_equal. exact IH.
Qed.

Lemma product_case n bar edges cs : sound (LProd edges cs) -> NoDup (map fst (s_entries edges)) -> StronglySorted (fun a b => fst (fst a) <= fst (fst b)) (s_entries edges) ->
  (forall e, In e (s_entries edges) -> fst (fst e) < length cs /\ snd (fst e) < s_cols edges) -> covered n (LProd edges cs) ->
  Forall (fun c => layer_ok (to_nx n bar c) (number_of_nodes c) (tree c)) cs ->
  layer_ok (to_nx n bar (LProd edges cs)) (number_of_nodes (LProd edges cs)) (tree (LProd edges cs)).
Proof.
  intros Hs Hnd Hsort Hb Hc IH g N. unfold covered in Hc. cbn [to_nx]. rewrite Hc. cbn [number_of_nodes] in *. set (m := s_cols edges) in *. destruct Hs as (_ & Hs & _).
  pose proof (add_units_spec (repeat UProd m) g N) as HA. destruct (add_units (repeat UProd m) g) as [g1 units] eqn:EA. rewrite repeat_length in HA. destruct HA as (X1 & -> & S1 & K1 & O1). clear EA.
  destruct (children_ok n bar cs g1) as (g2 & idss & E2 & X2 & ND2 & B2 & R2); [apply X1|exact IH|]. rewrite E2.
  assert (Xg2 : extends g g2) by (eapply extends_trans; eauto). pose proof (ex_size _ _ X2) as S2.
  assert (Hlen : length idss = length cs) by exact (Forall2_len _ _ _ R2).
  assert (Hbounds : forall e, In e (s_entries edges) -> fst (fst e) < length idss /\ snd (fst e) < m /\ snd e < length (nth (fst (fst e)) idss [])).
  { intros e He. destruct (Hb e He) as [Q1 Q2]. unfold id in *. split; [lia|]. split; [exact Q2|].
    destruct (nth_error cs (fst (fst e))) as [c|] eqn:Ec; [|apply nth_error_None in Ec; lia]. pose proof (Hs e c He Ec) as Q3. clear -R2 Ec Q3. revert Ec. generalize (fst (fst e)) as k. induction R2 as [|ids c' idss cs [Q _] R2 IHR]; intros [|k] Ec; cbn in Ec; try discriminate; cbn [nth]; [inversion Ec; subst c'; unfold id in *; rewrite Q; exact Q3|now apply IHR]. }
  rewrite product_edges_flat; [|intros e He; rewrite seq_length; exact (Hbounds e He)].
  assert (Hin : forall e, In e (s_entries edges) -> nsize g1 <= nth (snd e) (nth (fst (fst e)) idss []) 0 < nsize g2).
  { intros e He. destruct (Hbounds e He) as (Q1 & _ & Q3). apply B2. apply in_concat. exists (nth (fst (fst e)) idss []). split; now apply nth_In. }
  destruct (add_all_extends g g2 (flat_prod (seq (nsize g) m) edges idss) m Xg2 N) as (E3 & X3 & S3 & K3 & O3 & O3').
  { intros u Hu. rewrite (ex_out _ _ X2) by lia. apply O1. lia. }
  { lia. }
  { apply flat_prod_NoDup; [exact Hnd|exact ND2|]. intros e He. now apply Hbounds in He. }
  { intros a Ha. unfold flat_prod in Ha. apply in_map_iff in Ha. destruct Ha as (e & <- & He). cbn [fst snd]. destruct (Hbounds e He) as (Q1 & Q2 & Q3). rewrite seq_nth_base by exact Q2. pose proof (Hin e He). unfold id in *. lia. }
  set (g3 := add_all (flat_prod (seq (nsize g) m) edges idss) g2) in *.
  exists g3, (seq (nsize g) m). split; [reflexivity|].
  split; [exact X3|]. split; [apply seq_NoDup|]. split; [apply seq_length|]. split; [intros u Hu; apply in_seq in Hu; lia|].
  intros r Hr. rewrite seq_nth_base by exact Hr.
  assert (R4 : Forall2 (fun ids c => read g3 ids c) idss cs).
  { assert (Hall : Forall (fun ids => forall u, In u ids -> nsize g1 <= u < nsize g2) idss) by (apply Forall_forall; intros ids Hi u Hu; apply B2; apply in_concat; eauto).
    assert (O3b : forall u, nsize g + m <= u -> out_edges g3 u = out_edges g2 u) by (intros u Hu; apply O3; lia).
    clear -R2 Hall X2 K3 O3b S1. clearbody m g3. induction R2 as [|ids c idss cs Q1 Q2 IHR]; [constructor|]. inversion Hall as [|? ? A1 A2]; subst. constructor; [|now apply IHR]. apply (read_later g1 g2 g3) with (c := c) in A1; auto. intros u Hu. split; [apply K3|]. apply O3b. lia. }
  cbn [tree]. unfold prod_tree. apply unf_prod.
  - rewrite K3, (ex_kind _ _ X2) by lia. apply K1. apply nth_error_repeat. exact Hr.
  - rewrite O3' by lia. rewrite prod_filter; auto; [|intros e He; destruct (Hbounds e He) as (Q1 & Q2 & _); auto].
    rewrite Hlen, map_length.
    assert (HH : forall k j, In j (prod_edges edges r k) -> forall c, nth_error cs k = Some c -> j < number_of_nodes c).
    { intros k j Hj c Ec. unfold prod_edges in Hj. apply in_map_iff in Hj. destruct Hj as (e & <- & He). apply filter_In in He. destruct He as [He Hk]. apply andb_true_iff in Hk. destruct Hk as [Hk _]. apply Nat.eqb_eq in Hk. subst k. now apply (Hs e c). }
    clearbody g3 m. clear -R4 HH. assert (G : forall s, (forall k j, In j (prod_edges edges r (s + k)) -> forall c, nth_error cs k = Some c -> j < number_of_nodes c) ->
      Forall2 (fun e t => unfolds g3 (e_dst e) t) (map (fun v => mkEdge (nsize g + r) v None) (concat (map (fun kt => map (snd kt) (prod_edges edges r (fst kt))) (combine (seq s (length cs)) (map (fun ids k => nth k ids 0) idss)))))
        (concat (map (fun kt => map (snd kt) (prod_edges edges r (fst kt))) (combine (seq s (length cs)) (map (fun c r' => tree c r') cs))))).
    { clear HH. induction R4 as [|ids c idss cs [Q0 Q1] Q2 IHR]; intros s HH; cbn [length seq combine map concat]; [constructor|]. rewrite map_app. apply Forall2_app; cbn [fst snd].
      - assert (HJ : forall j, In j (prod_edges edges r s) -> j < number_of_nodes c) by (intros j Hj; apply (HH 0 j); [now rewrite Nat.add_0_r|reflexivity]). clear -Q1 HJ. induction (prod_edges edges r s) as [|j l IH]; cbn [map]; constructor; [cbn [e_dst]; apply Q1, HJ; now left|apply IH; intros; apply HJ; now right].
      - apply IHR. intros k j Hj c' Ec. apply (HH (S k) j); [now replace (s + S k) with (S s + k) by lia|exact Ec]. }
    apply (G 0). exact HH.
Qed.

(** ** Layers *)

(** Arrays as [from_nx] makes them: no edge twice, the edges of product layers sorted by child layer, all inside their shape; no dense layer. *)
Fixpoint indexed (L : layer) : Prop :=
  match L with
  | LInput _ _ => True
  | LSparse ws cs => Forall (fun w => NoDup (map fst (s_entries w))) ws /\ fold_right and True (map indexed cs)
  | LDense _ _ => False
  | LProd edges cs =>
      NoDup (map fst (s_entries edges)) /\ StronglySorted (fun a b => fst (fst a) <= fst (fst b)) (s_entries edges) /\
      (forall e, In e (s_entries edges) -> fst (fst e) < length cs /\ snd (fst e) < s_cols edges) /\ fold_right and True (map indexed cs)
  end.
Definition dirac_free (L : layer) : Prop := match L with LInput _ (IDirac _ _) => False | _ => True end.

Lemma to_nx_ok n bar L : sound L -> indexed L -> Forall (covered n) (all_layers L) -> (bar = true \/ Forall dirac_free (all_layers L)) ->
  layer_ok (to_nx n bar L) (number_of_nodes L) (tree L).
Proof.
  induction L as [v i|ws cs IH|ws cs IH|edges cs IH] using layer_ind'; intros Hs Hi Hc Hd.
  - intros g N. inversion Hc as [|? ? Hc1 _]; subst. unfold covered in Hc1. cbn [to_nx]. rewrite Hc1. cbn [sound] in Hs.
    assert (E : match i, bar with IDirac _ _, false => None | _, _ => Some (add_units (map ULeaf (leaves v i)) g) end = Some (add_units (map ULeaf (leaves v i)) g)).
    { destruct i; auto. destruct bar; auto. destruct Hd as [Hd|Hd]; [discriminate|]. inversion Hd as [|? ? Hd1 _]; subst. destruct Hd1. }
    pose proof (add_units_spec (map ULeaf (leaves v i)) g N) as HA. destruct (add_units (map ULeaf (leaves v i)) g) as [g1 units] eqn:EA. rewrite map_length, (leaves_length v i Hs) in HA. destruct HA as (X1 & -> & S1 & K1 & O1).
    exists g1, (seq (nsize g) (input_nodes i)). split; [exact E|]. split; [exact X1|]. split; [apply seq_NoDup|]. split; [apply seq_length|]. split; [intros u Hu; apply in_seq in Hu; lia|].
    intros r Hr. cbn [number_of_nodes] in Hr. rewrite seq_nth_base by exact Hr. cbn [tree]. apply unf_leaf. apply K1. rewrite nth_error_map, (leaves_spec v i r Hs Hr). reflexivity.
  - cbn [indexed] in Hi. destruct Hi as [Hi1 Hi2]. cbn [all_layers] in Hc, Hd. inversion Hc as [|? ? Hc1 Hc2]; subst. apply sparse_case; auto. cbn [sound] in Hs. destruct Hs as (_ & _ & _ & _ & Hs). rewrite fold_and_Forall in Hs, Hi2.
    apply Forall_forall. intros c Hin. rewrite Forall_forall in IH, Hs, Hi2. apply IH; auto.
    + rewrite Forall_forall in *. intros l Hl. apply Hc2. apply in_concat. exists (all_layers c). split; [now apply in_map|exact Hl].
    + destruct Hd as [Hd|Hd]; [now left|right]. inversion Hd as [|? ? _ Hd2]; subst. rewrite Forall_forall in *. intros l Hl. apply Hd2. apply in_concat. exists (all_layers c). split; [now apply in_map|exact Hl].
  - destruct Hi.
  - cbn [indexed] in Hi. destruct Hi as (Hi1 & Hi2 & Hi3 & Hi4). cbn [all_layers] in Hc, Hd. inversion Hc as [|? ? Hc1 Hc2]; subst. apply product_case; auto. cbn [sound] in Hs. destruct Hs as (_ & _ & Hs). rewrite fold_and_Forall in Hs, Hi4.
    apply Forall_forall. intros c Hin. rewrite Forall_forall in IH, Hs, Hi4. apply IH; auto.
    + rewrite Forall_forall in *. intros l Hl. apply Hc2. apply in_concat. exists (all_layers c). split; [now apply in_map|exact Hl].
    + destruct Hd as [Hd|Hd]; [now left|right]. inversion Hd as [|? ? _ Hd2]; subst. rewrite Forall_forall in *. intros l Hl. apply Hd2. apply in_concat. exists (all_layers c). split; [now apply in_map|exact Hl].
Qed.
