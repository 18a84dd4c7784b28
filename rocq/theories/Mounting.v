(** * Mounting: the circuit built by mount_with_interaction_terms *)
From Coq Require Import List Arith Bool Lia ZArith Reals Lra.
From Verif Require Import Num Graph GraphFacts Spec SpecFacts Circuit EvalFacts VarFacts Interval Dist Simplify SimplifyFacts
  TreeLocal NormalizeFacts Restrict Conditional Copy CopyFacts Heap ModeFacts Interaction InteractionFacts.
Import ListNotations.
Local Set Bullet Behavior "Strict Subproofs".
Local Open Scope nat_scope.

Lemma filter_true {A} (l : list A) : filter (fun _ => true) l = l.
Proof. induction l as [|a l IH]; cbn; congruence. Qed.

Section Mount.
Context {D : Type}.
Implicit Types g h : graph D.

Lemma subgraph_keepN h l : subgraph h l = keepN (fun v => existsb (Nat.eqb v) l) h.
Proof. reflexivity. Qed.

Lemma mount_spec g h u : wf g -> wf h -> In u (node_ids h) -> embeds h g ->
  exists g', mount g h u = Some g' /\ wf g' /\ (forall x, In x (node_ids g') <-> In x (node_ids g) \/ reach h u x) /\
    (forall x, In x (node_ids g) -> node_kind g' x = node_kind g x /\ out_edges g' x = out_edges g x) /\
    embeds h g'.
Proof.
  intros W Wh Hu Em. unfold mount, reachable_list. destruct (layers_from_total h u Wh Hu) as [ls Hls]. rewrite Hls.
  eexists. split; [reflexivity|]. assert (R := layers_from_In h u ls Hls). rewrite subgraph_keepN.
  match goal with |- context [keepN ?q h] => set (p := q) end.
  assert (Hp : forall x, p x = true <-> reach h u x) by (intros x; rewrite <- R; apply existsb_eqb_In).
  assert (Ins : forall x, reach h u x -> In x (node_ids h)).
  { intros x Hx. destruct Hx as [|v e Hv He _]; [exact Hu|now apply (wf_dst _ Wh)]. }
  assert (Hi : forall x, In x (node_ids (keepN p h)) <-> reach h u x).
  { intros x. rewrite keepN_ids, Hp. split; [tauto|]. intros X. split; auto. }
  assert (Ho : forall x, reach h u x -> out_edges (keepN p h) x = out_edges h x).
  { intros x Hx. rewrite keepN_out by (now apply Hp). rewrite <- (filter_true (out_edges h x)) at 2. apply filter_ext_in.
    intros e He. apply Hp. apply out_edges_In in He. destruct He as [He Es]. subst x. econstructor; eauto. }
  assert (Em' : embeds (keepN p h) g).
  { intros x Hx Hg. apply Hi in Hx. rewrite keepN_kind by (now apply Hp). rewrite (Ho x Hx). apply Em; auto. }
  destruct (add_circuit_spec g (keepN p h) W (keepN_wf p h Wh) Em') as (A & B & C & E).
  split; [exact A|]. split; [intros x; rewrite B, Hi; tauto|]. split; [exact C|].
  intros x Hx Hg. apply B in Hg. destruct Hg as [Hg|Hg].
  - destruct (C x Hg) as [-> ->]. now apply Em.
  - destruct (E x Hg) as [-> ->]. apply Hi in Hg. rewrite keepN_kind by (now apply Hp). split; [reflexivity|]. now apply Ho.
Qed.

(** ** The inner loop *)

Variable pcond : nat -> option num.
Variable pquery : nat -> nat -> option num.
Variable c : nat -> R.
Variable M : nat -> nat -> R.

Definition keep {A} (i : nat) (jv : nat * A) : bool := negb (Reqb (M i (fst jv)) 0).

Definition raw_edge (i : nat) (s : id) (jv : nat * id) : edge := mkEdge s (snd jv) (Some (nlog (Fin (M i (fst jv) / c i)))).

Lemma ndiv_Fin a b : (b <> 0)%R -> ndiv (Fin a) (Fin b) = Fin (a / b).
Proof. intros H. unfold ndiv. destruct (Req_EM_T b 0); [contradiction|reflexivity]. Qed.

Lemma inner_loop h i s l : wf h -> (c i <> 0)%R ->
  (forall jv, In jv l -> pquery i (fst jv) = Some (Fin (M i (fst jv))) /\ In (snd jv) (node_ids h)) -> NoDup (map snd l) ->
  ~ In s (node_ids h) -> forall g, wf g -> In s (node_ids g) -> embeds h g ->
  (forall e, In e (out_edges g s) -> ~ In (e_dst e) (map snd l)) ->
  exists g', foldM (mount_other pquery h i (Fin (c i)) s) l g = Some g' /\ wf g' /\ embeds h g' /\
    (forall x, In x (node_ids g') <-> In x (node_ids g) \/ exists jv, In jv l /\ keep i jv = true /\ reach h (snd jv) x) /\
    (forall x, In x (node_ids g) -> node_kind g' x = node_kind g x /\ (x <> s -> out_edges g' x = out_edges g x)) /\
    out_edges g' s = out_edges g s ++ map (raw_edge i s) (filter (keep i) l).
Proof.
  intros Wh Hc Hq ND Hs. revert Hq ND. induction l as [|[j v] l IH]; intros Hq ND g W Hsg Em Hnew; cbn [foldM].
  - exists g. split; [reflexivity|]. split; [exact W|]. split; [exact Em|]. split; [|split].
    + intros x. split; [auto|]. intros [H|(jv & [] & _)]; exact H.
    + intros x Hx. auto.
    + cbn. now rewrite app_nil_r.
  - cbn [map snd] in ND. apply NoDup_cons_iff in ND. destruct ND as [N1 N2].
    destruct (Hq (j, v)) as [Q1 Q2]; [now left|]. cbn [fst snd] in Q1, Q2.
    assert (Hq' : forall jv, In jv l -> pquery i (fst jv) = Some (Fin (M i (fst jv))) /\ In (snd jv) (node_ids h)) by (intros jv H; apply Hq; now right).
    unfold mount_other at 1. cbn [fst snd]. rewrite Q1. cbn [is_zero filter]. unfold keep at 2. cbn [fst].
    destruct (Reqb (M i j) 0) eqn:EZ; cbn [negb].
    + destruct (IH Hq' N2 g W Hsg Em) as (g' & A1 & A2 & A3 & A4 & A5 & A6).
      { intros e He X. apply (Hnew e He). now right. }
      exists g'. split; [exact A1|]. split; [exact A2|]. split; [exact A3|]. split; [|split; [exact A5|exact A6]].
      intros x. rewrite A4. split; (intros [H|(jv & H1 & H2 & H3)]; [now left|right]).
      * exists jv. split; [now right|auto].
      * destruct H1 as [<-|H1]; [|exists jv; auto]. exfalso. unfold keep in H2. cbn [fst] in H2. rewrite EZ in H2. discriminate.
    + destruct (mount_spec g h v W Wh Q2 Em) as (g1 & B1 & B2 & B3 & B4 & B5). rewrite B1, ndiv_Fin by exact Hc.
      assert (Hs1 : In s (node_ids g1)) by (apply B3; auto). assert (Hv1 : In v (node_ids g1)) by (apply B3; right; constructor).
      assert (Os : out_edges (add_edge g1 s v (Some (nlog (Fin (M i j / c i))))) s = out_edges g s ++ [raw_edge i s (j, v)]).
      { rewrite add_edge_out, Nat.eqb_refl. destruct (B4 s Hsg) as [_ ->]. rewrite addl_absent; [reflexivity|].
        intros X. apply in_map_iff in X. destruct X as (e & He & X). apply (Hnew e X). left. now symmetry. }
      destruct (IH Hq' N2 (add_edge g1 s v (Some (nlog (Fin (M i j / c i)))))) as (g' & A1 & A2 & A3 & A4 & A5 & A6).
      * now apply add_edge_wf.
      * now rewrite add_edge_ids.
      * intros x Hx Hg. rewrite add_edge_ids in Hg. rewrite add_edge_kind, add_edge_out. destruct (Nat.eqb_spec x s) as [->|]; [tauto|]. now apply B5.
      * intros e He. rewrite Os in He. apply in_app_iff in He. destruct He as [He|[<-|[]]].
        -- intros X. apply (Hnew e He). now right.
        -- exact N1.
      * exists g'. split; [exact A1|]. split; [exact A2|]. split; [exact A3|]. split; [|split].
        -- intros x. rewrite A4, add_edge_ids, B3. split.
           ++ intros [[H|H]|(jv & H1 & H2 & H3)]; [now left|right|right].
              ** exists (j, v). split; [now left|]. split; [unfold keep; cbn [fst]; now rewrite EZ|exact H].
              ** exists jv. split; [now right|auto].
           ++ intros [H|(jv & [<-|H1] & H2 & H3)]; [auto|auto|]. right. exists jv. auto.
        -- intros x Hx. assert (Hx1 : In x (node_ids g1)) by (apply B3; auto). destruct (A5 x) as [K1 K2]; [now rewrite add_edge_ids|].
           rewrite K1, add_edge_kind. destruct (B4 x Hx) as [K3 K4]. split; [exact K3|]. intros Nx. rewrite (K2 Nx), add_edge_out.
           destruct (Nat.eqb_spec x s); [contradiction|exact K4].
        -- rewrite A6, Os, <- app_assoc. reflexivity.
Qed.

(** ** The outer loop *)

Variable g h : graph D.
Variables self other : id.
Variable nx : nat.
Hypothesis Wg : wf g.
Hypothesis Wh : wf h.
Hypothesis apart : forall x, In x (node_ids g) -> ~ In x (node_ids h).
Hypothesis fresh : forall x, In x (node_ids g) \/ In x (node_ids h) -> x < nx.
Hypothesis Hself : In self (node_ids g).
Hypothesis Hroot : ~ In self (map e_dst (g_edges g)).

Let own := subcircuits g self.
Let oth := subcircuits h other.
Hypothesis Hcond : forall i, i < length own -> pcond i = Some (Fin (c i)) /\ (0 < c i)%R.
Hypothesis Hquery : forall i j, i < length own -> j < length oth -> pquery i j = Some (Fin (M i j)) /\ (0 <= M i j)%R.
Hypothesis Hmarg : forall i, i < length own -> Rsum (map (M i) (seq 0 (length oth))) = c i.

Definition pn (i : nat) : id := nx + 2 * i.
Definition sn (i : nat) : id := S (nx + 2 * i).

(** The edges of the proxy sum unit number [i]. *)
Definition row_edges (i : nat) (es : list edge) : Prop :=
  Forall2 (fun jv e => e_src e = sn i /\ e_dst e = snd jv /\ exists w, e_lw e = Some w /\ lw_ok w /\ wexp w = (M i (fst jv) / c i)%R)
    (filter (keep i) (enumerate 0 oth)) es.

Definition done (k : nat) (x : graph D * nat) : Prop :=
  let '(g', nx') := x in
  wf g' /\ nx' = pn k /\ embeds h g' /\
  out_edges g' self = skipn k (out_edges g self) ++ map (fun i => mkEdge self (pn i) (Some (nlog (Fin (c i))))) (seq 0 k) /\
  (forall x, In x (node_ids g) -> node_kind g' x = node_kind g x /\ (x <> self -> out_edges g' x = out_edges g x)) /\
  (forall i v, i < k -> nth_error own i = Some v ->
     node_kind g' (pn i) = Some UProd /\ node_kind g' (sn i) = Some USum /\
     out_edges g' (pn i) = [mkEdge (pn i) v None; mkEdge (pn i) (sn i) None] /\ row_edges i (out_edges g' (sn i))) /\
  (forall x, In x (node_ids g') <-> In x (node_ids g) \/ (exists i, i < k /\ (x = pn i \/ x = sn i)) \/
     exists i jv, i < k /\ In jv (enumerate 0 oth) /\ keep i jv = true /\ reach h (snd jv) x).

Lemma enumerate_spec {A} (l : list A) : forall n, map snd (enumerate n l) = l /\ map fst (enumerate n l) = seq n (length l).
Proof. induction l as [|a l IH]; intros n; cbn; [auto|]. destruct (IH (S n)) as [-> ->]. auto. Qed.

Lemma enumerate_In {A} (l : list A) jv : In jv (enumerate 0 l) -> fst jv < length l /\ In (snd jv) l.
Proof.
  intros H. destruct (enumerate_spec l 0) as [E1 E2]. split.
  - apply (in_map fst) in H. rewrite E2 in H. apply in_seq in H. lia.
  - apply (in_map snd) in H. now rewrite E1 in H.
Qed.

Lemma done_0 : done 0 (g, nx).
Proof.
  unfold done. split; [exact Wg|]. split; [unfold pn; lia|]. split.
  { intros x Hx Hg. exfalso. exact (apart x Hg Hx). }
  split; [cbn; now rewrite app_nil_r|]. split; [auto|]. split; [intros i v Hi; lia|].
  intros x. split; [auto|]. intros [H|[(i & Hi & _)|(i & jv & Hi & _)]]; [exact H|lia|lia].
Qed.

Lemma enumerate_sum {A} (m : nat -> R) (l : list A) : forall n,
  Rsum (map (fun jv => m (fst jv)) (enumerate n l)) = Rsum (map m (seq n (length l))).
Proof. intros n. rewrite <- (map_map fst m). now rewrite (proj2 (enumerate_spec l n)). Qed.

Lemma filter_sum {A} (p : A -> bool) (m : A -> R) l : (forall a, In a l -> p a = false -> m a = 0%R) ->
  Rsum (map m (filter p l)) = Rsum (map m l).
Proof.
  induction l as [|a l IH]; intros H; [reflexivity|]. cbn [filter]. destruct (p a) eqn:E; cbn [map Rsum].
  - unfold Rsum in *. cbn. f_equal. apply IH. intros; apply H; auto. now right.
  - cbn. rewrite (H a) by (auto; now left). unfold Rsum in *. rewrite Rplus_0_l. apply IH. intros; apply H; auto. now right.
Qed.

Lemma row_total i : i < length own -> Rsum (map (fun jv => (M i (fst jv) / c i)%R) (filter (keep i) (enumerate 0 oth))) = 1%R.
Proof.
  intros Hi. destruct (Hcond i Hi) as [_ Hc]. rewrite filter_sum.
  - rewrite (enumerate_sum (fun j => (M i j / c i)%R)). rewrite Rsum_div, Hmarg by exact Hi. field. lra.
  - intros jv _ Hk. unfold keep in Hk. apply negb_false_iff in Hk. destruct (Reqb_spec (M i (fst jv)) 0) as [->|]; [|discriminate]. unfold Rdiv. ring.
Qed.

Lemma kept_pos i jv : i < length own -> In jv (filter (keep i) (enumerate 0 oth)) -> (0 < M i (fst jv) / c i)%R.
Proof.
  intros Hi H. apply filter_In in H. destruct H as [H K]. apply enumerate_In in H. destruct (Hquery i (fst jv) Hi (proj1 H)) as [_ Q].
  unfold keep in K. apply negb_true_iff in K. destruct (Reqb_spec (M i (fst jv)) 0) as [|N]; [discriminate|].
  apply Rdiv_lt_0_compat; [lra|]. now apply Hcond.
Qed.

Lemma step k x : k < length own -> done k x -> forall v, nth_error own k = Some v ->
  exists y, mount_own pcond pquery h self oth x (k, v) = Some y /\ done (S k) y.
Proof.
  destruct x as [g0 nx0]. intros Hk (W0 & -> & Em & Os & Old & New & Ids) v Hv. unfold mount_own. cbn [fst snd].
  destruct (Hcond k Hk) as [Hc Hcp]. rewrite Hc. cbn [is_zero]. destruct (Reqb_spec (c k) 0) as [Z|_]; [lra|].
  assert (Vg : In v (node_ids g)).
  { apply nth_error_In in Hv. unfold own in Hv. apply subcircuits_In in Hv. destruct Hv as (e & He & _ & <-). now apply (wf_dst _ Wg). }
  assert (Ids0 : forall x, In x (node_ids g0) -> x < pn k).
  { intros x Hx. apply Ids in Hx. destruct Hx as [H|[(i & Hi & [-> | ->])|(i & jv & Hi & Hj & _ & Hr)]].
    - unfold pn. specialize (fresh x (or_introl H)). lia.
    - unfold pn. lia.
    - unfold pn, sn. lia.
    - assert (x < nx); [|unfold pn; lia]. apply fresh. right. apply enumerate_In in Hj. destruct Hj as [_ Hj]. apply subcircuits_In in Hj.
      destruct Hj as (e & He & _ & Ed). rewrite <- Ed in Hr. destruct Hr as [|w e' _ He' _]; apply (wf_dst _ Wh); assumption. }
  assert (Pn : ~ In (pn k) (node_ids g0)) by (intros X; apply Ids0 in X; lia).
  assert (Sn : ~ In (sn k) (node_ids g0)) by (intros X; apply Ids0 in X; unfold sn, pn in *; lia).
  assert (PS : pn k <> sn k) by (unfold pn, sn; lia). assert (SP : self <> pn k) by (intros X; apply Pn; rewrite <- X; apply Ids; auto).
  assert (SS : self <> sn k) by (intros X; apply Sn; rewrite <- X; apply Ids; auto).
  change (S (pn k)) with (sn k). cbv zeta.
  set (g1 := add_node (add_node g0 (pn k) UProd) (sn k) USum).
  assert (W1 : wf g1) by (apply add_node_wf, add_node_wf, W0).
  assert (I1 : forall x, In x (node_ids g1) <-> In x (node_ids g0) \/ x = pn k \/ x = sn k) by (intros x; unfold g1; rewrite !add_node_ids; tauto).
  assert (O1 : forall x, out_edges g1 x = out_edges g0 x) by (intros x; unfold g1; now rewrite !add_node_out).
  assert (Kp : node_kind g1 (pn k) = Some UProd) by (unfold g1; rewrite add_node_kind_other by auto; now apply add_node_kind_new).
  assert (Ks : node_kind g1 (sn k) = Some USum) by (unfold g1; apply add_node_kind_new; rewrite add_node_ids; intros [X|X]; [auto|congruence]).
  assert (K1 : forall x, In x (node_ids g0) -> node_kind g1 x = node_kind g0 x).
  { intros x Hx. unfold g1. rewrite !add_node_kind_old; auto. apply add_node_ids. auto. }
  (* the edge to the own subcircuit *)
  assert (Sk : exists e0, skipn k (out_edges g self) = e0 :: skipn (S k) (out_edges g self) /\ e_dst e0 = v).
  { unfold own, subcircuits in Hv. clear - Hv. revert k Hv. generalize (out_edges g self). induction l as [|e l IH]; intros k Hv; [destruct k; discriminate|].
    destruct k as [|k]; cbn in Hv; [injection Hv as <-; exists e; split; reflexivity|]. apply IH in Hv. exact Hv. }
  destruct Sk as (e0 & Sk & Ev).
  assert (Ein : In e0 (out_edges g1 self)) by (rewrite O1, Os, Sk; now left).
  assert (Er : existsb (is_edge self v) (g_edges g1) = true).
  { rewrite existsb_out. apply existsb_exists. exists e0. split; [exact Ein|]. now apply Nat.eqb_eq. }
  destruct (remove_edge g1 self v) as [g2|] eqn:E2; [|unfold remove_edge in E2; rewrite Er in E2; discriminate].
  destruct (remove_edge_spec _ _ _ _ E2) as (O2 & N2 & W2). specialize (W2 W1).
  assert (I2 : node_ids g2 = node_ids g1) by (unfold node_ids; now rewrite N2).
  assert (K2 : forall x, node_kind g2 x = node_kind g1 x) by (intros x; unfold node_kind; now rewrite N2).
  assert (Vne : forall i, v <> pn i) by (intros i X; specialize (fresh v (or_introl Vg)); unfold pn in X; lia).
  assert (Os2 : out_edges g2 self = skipn (S k) (out_edges g self) ++ map (fun i => mkEdge self (pn i) (Some (nlog (Fin (c i))))) (seq 0 k)).
  { rewrite O2, Nat.eqb_refl, O1, Os, Sk. cbn [app filter]. rewrite Ev, Nat.eqb_refl. cbn [negb]. rewrite filter_app.
    assert (ND : NoDup (map e_dst (out_edges g self))) by now apply out_NoDup.
    rewrite <- (firstn_skipn k (out_edges g self)), Sk, map_app in ND. cbn [map] in ND. apply NoDup_remove_2 in ND.
    f_equal.
    - rewrite <- (filter_true (skipn (S k) (out_edges g self))) at 2. apply filter_ext_in. intros a Ha. destruct (Nat.eqb_spec (e_dst a) v) as [E|]; [|reflexivity].
      exfalso. apply ND. rewrite Ev, <- E. apply in_app_iff. right. now apply in_map.
    - rewrite <- (filter_true (map _ (seq 0 k))) at 2. apply filter_ext_in. intros a Ha. apply in_map_iff in Ha. destruct Ha as (i & <- & _). cbn.
      destruct (Nat.eqb_spec (pn i) v) as [E|]; [|reflexivity]. exfalso. now apply (Vne i). }
  assert (Op2 : out_edges g2 (pn k) = []).
  { rewrite O2. destruct (Nat.eqb_spec (pn k) self); [congruence|]. rewrite O1. now apply out_outside. }
  assert (Osn2 : out_edges g2 (sn k) = []).
  { rewrite O2. destruct (Nat.eqb_spec (sn k) self); [congruence|]. rewrite O1. now apply out_outside. }
  set (g3 := add_edge g2 self (pn k) (Some (nlog (Fin (c k))))).
  set (g4 := add_edge g3 (pn k) v None). set (g5 := add_edge g4 (pn k) (sn k) None).
  assert (I5 : node_ids g5 = node_ids g1) by (unfold g5, g4, g3; rewrite !add_edge_ids; exact I2).
  assert (K5 : forall x, node_kind g5 x = node_kind g1 x) by (intros x; unfold g5, g4, g3; rewrite !add_edge_kind; apply K2).
  assert (S1 : In self (node_ids g1)) by (apply I1; left; apply Ids; auto).
  assert (V1 : In v (node_ids g1)) by (apply I1; left; apply Ids; auto).
  assert (W5 : wf g5).
  { unfold g5, g4, g3. repeat apply add_edge_wf; rewrite ?add_edge_ids, ?I2; auto; apply I1; auto. }
  assert (O5 : forall x, x <> self -> x <> pn k -> out_edges g5 x = out_edges g0 x).
  { intros x N3 N4. unfold g5, g4, g3. rewrite !add_edge_out. destruct (Nat.eqb_spec x (pn k)); [contradiction|]. destruct (Nat.eqb_spec x self); [contradiction|].
    rewrite O2. destruct (Nat.eqb_spec x self); [contradiction|]. apply O1. }
  assert (Os5 : out_edges g5 self = skipn (S k) (out_edges g self) ++ map (fun i => mkEdge self (pn i) (Some (nlog (Fin (c i))))) (seq 0 (S k))).
  { unfold g5, g4, g3. rewrite !add_edge_out. destruct (Nat.eqb_spec self (pn k)); [contradiction|]. rewrite Nat.eqb_refl, Os2, addl_absent.
    - rewrite seq_S, map_app, <- app_assoc. reflexivity.
    - intros X. apply in_map_iff in X. destruct X as (a & Ea & X). apply in_app_iff in X. destruct X as [X|X].
      + apply Pn. rewrite <- Ea. apply Ids. left. apply (wf_dst _ Wg). assert (Y : In a (out_edges g self)).
        { rewrite <- (firstn_skipn (S k)). apply in_app_iff. now right. } now apply out_edges_In in Y.
      + apply in_map_iff in X. destruct X as (i & <- & Hi). apply in_seq in Hi. cbn in Ea. unfold pn in Ea. lia. }
  assert (Op5 : out_edges g5 (pn k) = [mkEdge (pn k) v None; mkEdge (pn k) (sn k) None]).
  { unfold g5, g4, g3. rewrite !add_edge_out, !Nat.eqb_refl. destruct (Nat.eqb_spec (pn k) self); [congruence|]. rewrite Op2.
    rewrite (addl_absent _ v) by (intros []). rewrite addl_absent; [reflexivity|]. cbn. intros [X|[]]. apply Sn. rewrite <- X. apply Ids. auto. }
  assert (Osn5 : out_edges g5 (sn k) = []).
  { rewrite O5 by congruence. now apply out_outside. }
  assert (Hsnh : ~ In (sn k) (node_ids h)) by (intros X; specialize (fresh _ (or_intror X)); unfold sn in fresh; lia).
  assert (Hpnh : ~ In (pn k) (node_ids h)) by (intros X; specialize (fresh _ (or_intror X)); unfold pn in fresh; lia).
  assert (Em5 : embeds h g5).
  { intros x Hx Hg. rewrite I5 in Hg. apply I1 in Hg. destruct Hg as [Hg|[-> | ->]]; [|contradiction|contradiction].
    assert (x <> self) by (intros ->; exact (apart self Hself Hx)). assert (x <> pn k) by (intros ->; contradiction).
    rewrite K5, K1, O5 by auto. now apply Em. }
  destruct (inner_loop h k (sn k) (enumerate 0 oth) Wh) with (g := g5) as (g6 & A1 & A2 & A3 & A4 & A5 & A6); auto.
  - lra.
  - intros jv Hj. apply enumerate_In in Hj. destruct Hj as [J1 J2]. split; [now apply Hquery|]. apply subcircuits_In in J2.
    destruct J2 as (e & He & _ & <-). now apply (wf_dst _ Wh).
  - rewrite (proj1 (enumerate_spec oth 0)). unfold oth, subcircuits. now apply out_NoDup.
  - rewrite I5. apply I1. auto.
  - rewrite Osn5. intros e [].
  - rewrite A1. rewrite Osn5 in A6. cbn [app] in A6.
    assert (PT : positive_total g6 (sn k)).
    { exists (map (fun jv => nlog (Fin (M k (fst jv) / c k))) (filter (keep k) (enumerate 0 oth))). unfold weights_of. rewrite A6.
      assert (F : Forall (fun jv => lw_ok (nlog (Fin (M k (fst jv) / c k))) /\ wexp (nlog (Fin (M k (fst jv) / c k))) = (M k (fst jv) / c k)%R) (filter (keep k) (enumerate 0 oth))).
      { apply Forall_forall. intros jv Hj. apply wexp_nlog. left. now apply kept_pos. }
      split; [|split].
      - clear. induction (filter (keep k) (enumerate 0 oth)) as [|jv l IH]; [reflexivity|]. unfold mapM in *. cbn [map raw_edge e_lw]. now rewrite IH.
      - apply Forall_map. eapply Forall_impl; [|exact F]. cbn beta. tauto.
      - rewrite map_map. assert (Rsum (map (fun jv => wexp (nlog (Fin (M k (fst jv) / c k)))) (filter (keep k) (enumerate 0 oth))) = 1%R); [|lra].
        rewrite <- (row_total k Hk). f_equal. apply map_ext_in. intros jv Hj. rewrite Forall_forall in F. now apply F. }
    destruct (sum_normalize_spec g6 (sn k) PT) as (f & F1 & F2). rewrite F1. eexists. split; [reflexivity|].
    assert (Row : row_edges k (out_edges (set_weights (sn k) f g6) (sn k))).
    { destruct F2 as (cc & Cp & F2 & Tot). unfold row_edges. rewrite A6 in F2.
      assert (Hcc : cc = 1%R).
      { assert (T2 : Rsum (map (fun e => match e_lw e with Some w => wexp w | None => 0%R end) (out_edges (set_weights (sn k) f g6) (sn k)))
                   = (Rsum (map (fun jv => (M k (fst jv) / c k)%R) (filter (keep k) (enumerate 0 oth))) / cc)%R).
        { rewrite <- Rsum_div. clear Tot. assert (KP := fun jv => kept_pos k jv Hk). revert F2 KP. generalize (out_edges (set_weights (sn k) f g6) (sn k)).
          generalize (filter (keep k) (enumerate 0 oth)). clear. intros l l' F2. remember (map (raw_edge k (sn k)) l) as rl. revert l Heqrl.
          induction F2 as [|e e' es es' (E1 & E2 & w & w' & E3 & E4 & E5 & E6) F2 IH]; intros l Heq KP; destruct l as [|jv l]; try discriminate; [reflexivity|].
          cbn [map] in Heq. injection Heq as -> ->. cbn [map]. unfold Rsum in *. cbn. rewrite E4, E6. cbn in E3. injection E3 as <-.
          f_equal; [|apply IH; auto; intros; apply KP; now right]. f_equal. apply wexp_nlog. left. apply KP. now left. }
        rewrite Tot, (row_total k Hk) in T2. assert (cc <> 0)%R by lra. apply (Rmult_eq_compat_r cc) in T2. unfold Rdiv in T2. rewrite Rmult_assoc, Rinv_l in T2 by auto. lra. }
      subst cc. clear Tot. assert (KP := fun jv => kept_pos k jv Hk). revert F2 KP. generalize (out_edges (set_weights (sn k) f g6) (sn k)).
      generalize (filter (keep k) (enumerate 0 oth)). clear. intros l l' F2. remember (map (raw_edge k (sn k)) l) as rl. revert l Heqrl.
      induction F2 as [|e e' es es' (E1 & E2 & w & w' & E3 & E4 & E5 & E6) F2 IH]; intros l Heq KP; destruct l as [|jv l]; try discriminate; [constructor|].
      cbn [map] in Heq. injection Heq as -> ->. constructor; [|apply IH; auto; intros; apply KP; now right].
      cbn [raw_edge e_lw e_src e_dst] in E1, E2, E3. split; [auto|]. split; [auto|]. exists w'. split; [auto|]. split; [auto|]. rewrite E6. assert (Ew : w = nlog (Fin (M k (fst jv) / c k))) by congruence. subst w.
      rewrite (proj2 (wexp_nlog _ (or_introl (KP jv (or_introl eq_refl))))). unfold Rdiv. rewrite Rinv_1. ring. }
    unfold done. rewrite set_weights_ids. assert (SWo : forall x, x <> sn k -> out_edges (set_weights (sn k) f g6) x = out_edges g6 x).
    { intros x Nx. rewrite set_weights_out. destruct (Nat.eqb_spec x (sn k)); [contradiction|reflexivity]. }
    assert (O6 : forall x, In x (node_ids g0) -> x <> self -> out_edges g6 x = out_edges g0 x).
    { intros x Hx Nx. assert (N3 : x <> pn k) by (intros ->; auto). assert (N4 : x <> sn k) by (intros ->; auto).
      destruct (A5 x) as [_ A5']; [rewrite I5; apply I1; auto|]. rewrite (A5' N4). now apply O5. }
    assert (K6 : forall x, In x (node_ids g0) -> node_kind g6 x = node_kind g0 x).
    { intros x Hx. destruct (A5 x) as [A5' _]; [rewrite I5; apply I1; auto|]. rewrite A5', K5. now apply K1. }
    split; [|split; [|split; [|split; [|split; [|split]]]]].
    + destruct A2 as [Q1 Q2 Q3 Q4]. constructor.
      * exact Q1.
      * unfold set_weights. cbn [g_edges]. rewrite map_map. rewrite (map_ext _ (fun e => (e_src e, e_dst e))); [exact Q2|]. intros e. now destruct (e_src e =? sn k).
      * unfold set_weights. cbn [g_edges]. intros e He. apply in_map_iff in He. destruct He as (e1 & <- & He). destruct (e_src e1 =? sn k); exact (Q3 e1 He).
      * unfold set_weights. cbn [g_edges]. intros e He. apply in_map_iff in He. destruct He as (e1 & <- & He). destruct (e_src e1 =? sn k); exact (Q4 e1 He).
    + unfold sn, pn. lia.
    + intros x Hx Hg. rewrite set_weights_kind, SWo by (intros ->; contradiction). now apply A3.
    + rewrite SWo by exact SS. destruct (A5 self) as [_ A5']; [rewrite I5; exact S1|]. rewrite (A5' SS). exact Os5.
    + intros x Hx. assert (Hx0 : In x (node_ids g0)) by (apply Ids; auto). rewrite set_weights_kind, K6 by exact Hx0. destruct (Old x Hx) as [Q1 Q2].
      split; [exact Q1|]. intros Nx. rewrite SWo by (intros ->; contradiction). rewrite O6 by auto. auto.
    + intros i u Hi Hu. destruct (Nat.eq_dec i k) as [->|Ni].
      * assert (u = v) as -> by congruence. rewrite !set_weights_kind. destruct (A5 (pn k)) as [P1 P2]; [rewrite I5; apply I1; auto|].
        destruct (A5 (sn k)) as [P3 _]; [rewrite I5; apply I1; auto|]. rewrite P1, P3, !K5, SWo, (P2 PS) by auto. auto.
      * destruct (New i u) as (Q1 & Q2 & Q3 & Q4); [lia|auto|]. assert (HH : In (pn i) (node_ids g0) /\ In (sn i) (node_ids g0)).
        { split; apply Ids; right; left; exists i; split; try lia; auto. }
        destruct HH as [HH1 HH2]. assert (pn i <> self /\ sn i <> self) as [Z1 Z2].
        { split; intros X; specialize (fresh self (or_introl Hself)); unfold pn, sn in X; lia. }
        rewrite !set_weights_kind, !SWo, !K6, !O6 by (auto; intros X; unfold pn, sn in X; lia). auto.
    + intros x. rewrite A4, I5, I1, Ids. split.
      * intros [[[H|[(i & Hi & H)|(i & jv & Hi & H)]]|H]|(jv & H1 & H2 & H3)].
        -- auto.
        -- right. left. exists i. split; [lia|auto].
        -- right. right. exists i, jv. split; [lia|auto].
        -- right. left. exists k. split; [lia|auto].
        -- right. right. exists k, jv. split; [lia|auto].
      * intros [H|[(i & Hi & H)|(i & jv & Hi & H)]].
        -- auto.
        -- destruct (Nat.eq_dec i k) as [->|]; [left; right; exact H|]. left. left. right. left. exists i. split; [lia|auto].
        -- destruct (Nat.eq_dec i k) as [->|]; [right; exists jv; tauto|]. left. left. right. right. exists i, jv. split; [lia|auto].
Qed.

Lemma outer_loop : exists y, foldM (mount_own pcond pquery h self oth) (enumerate 0 own) (g, nx) = Some y /\ done (length own) y.
Proof.
  assert (L : forall rest k x, k + length rest = length own -> (forall i, i < length rest -> nth_error own (k + i) = nth_error rest i) -> done k x ->
    exists y, foldM (mount_own pcond pquery h self oth) (enumerate k rest) x = Some y /\ done (length own) y).
  { induction rest as [|v rest IH]; intros k x Hl Hn Hd; cbn [enumerate foldM].
    - exists x. split; [reflexivity|]. cbn in Hl. now rewrite <- Hl, Nat.add_0_r.
    - cbn [length] in *. destruct (step k x) with (v := v) as (y & Y1 & Y2); [lia|exact Hd| |].
      + specialize (Hn 0). rewrite Nat.add_0_r in Hn. apply Hn. lia.
      + rewrite Y1. apply IH; [lia| |exact Y2]. intros i Hi. specialize (Hn (S i)). rewrite <- plus_n_Sm in Hn. cbn [nth_error] in Hn. apply Hn. lia. }
  apply (L own 0); [reflexivity|reflexivity|exact done_0].
Qed.
End Mount.
