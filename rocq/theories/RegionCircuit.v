(** * RegionCircuit: the layers built from a region graph *)
From Coq Require Import List Arith Bool Lia Permutation Sorted Reals Lra ZArith.
From Verif Require Import Num Graph Spec Circuit EvalFacts Interval BayesNet SimplifyFacts NormalizeFacts PropertiesJptParams SpecFacts JaxLayerFacts JaxLayer JaxSpec JaxMeaning PropertiesJaxLayer RegionGraph RegionFacts RegionInv.
Import ListNotations.
Local Set Bullet Behavior "Strict Subproofs".
Local Open Scope nat_scope.

Lemma sorted_lt_ext l : forall l', StronglySorted lt l -> StronglySorted lt l' -> (forall x : nat, In x l <-> In x l') -> l = l'.
Proof.
  induction l as [|a l IH]; intros [|b l'] H1 H2 He; auto.
  - exfalso. apply (He b). now left.
  - exfalso. apply (He a). now left.
  - inversion H1 as [|? ? S1 F1]; inversion H2 as [|? ? S2 F2]; subst. rewrite Forall_forall in F1, F2. assert (E : a = b).
    { assert (X : In a (b :: l')) by (apply He; now left). assert (Y : In b (a :: l)) by (apply He; now left). destruct X as [->|X]; [reflexivity|]. destruct Y as [->|Y]; [reflexivity|]. apply F1 in Y. apply F2 in X. lia. }
    subst b. f_equal. apply IH; auto. intros x. split; intros X.
    + assert (Z : In x (a :: l')) by (apply He; now right). destruct Z as [->|Z]; [|exact Z]. apply F1 in X. lia.
    + assert (Z : In x (a :: l)) by (apply He; now right). destruct Z as [->|Z]; [|exact Z]. apply F2 in X. lia.
Qed.

Lemma concat_NoDup_index {A} (ws : list (list A)) : forall i j a b v, NoDup (concat ws) -> nth_error ws i = Some a -> nth_error ws j = Some b -> In v a -> In v b -> i = j.
Proof.
  assert (G : forall (ws : list (list A)) j b (v : A), nth_error ws j = Some b -> In v b -> In v (concat ws)) by (intros l j b v H1 H2; apply in_concat; exists b; split; [exact (nth_error_In _ _ H1)|exact H2]).
  assert (D : forall (x y : list A) v, NoDup (x ++ y) -> In v x -> In v y -> False). { induction x as [|u x IH]; intros y v N H1 H2; [destruct H1|]. cbn in N. inversion N as [|? ? N1 N2]; subst. destruct H1 as [->|H1]; [apply N1, in_or_app; now right|eauto]. }
  induction ws as [|w ws IH]; intros i j a b v N Hi Hj Ha Hb; [destruct i; discriminate|]. cbn in N. assert (N' : NoDup (concat ws)) by (clear -N; induction w as [|u w IH]; [exact N|]; cbn in N; inversion N; auto).
  destruct i as [|i], j as [|j]; cbn in Hi, Hj; [reflexivity| | |f_equal; eauto]; exfalso.
  - inversion Hi; subst. exact (D _ _ v N Ha (G _ _ _ _ Hj Hb)).
  - inversion Hj; subst. exact (D _ _ v N Hb (G _ _ _ _ Hi Ha)).
Qed.

(** ** Breadth-first order *)
Inductive chain (g : rgraph) : list nat -> list (list nat) -> Prop :=
| chain_nil : chain g [] []
| chain_cons layer rest : layer <> [] -> chain g (concat (map (successors g) layer)) rest -> chain g layer (layer :: rest).

Lemma existsb_eqb u l : existsb (Nat.eqb u) l = true <-> In u l.
Proof. rewrite existsb_exists. split; [intros (x & H & E); apply Nat.eqb_eq in E; now subst|intros H; exists u; split; [exact H|apply Nat.eqb_refl]]. Qed.

Lemma unvisited_id l : forall visited, NoDup l -> (forall u, In u l -> ~ In u visited) -> unvisited l visited = l.
Proof.
  induction l as [|a l IH]; intros visited Hn Hd; [reflexivity|]. cbn. inversion Hn as [|? ? N1 N2]; subst.
  destruct (existsb (Nat.eqb a) visited) eqn:E; [apply existsb_eqb in E; exfalso; apply (Hd a); [now left|exact E]|].
  f_equal. apply IH; [exact N2|]. intros u Hu [->|X]; [contradiction|]. apply (Hd u); [now right|exact X].
Qed.

Lemma successors_In g u c : In c (successors g u) <-> In (u, c) (r_edges g).
Proof.
  unfold successors. rewrite in_map_iff. split.
  - intros ([a b] & E & H). apply filter_In in H. destruct H as [H E']. apply Nat.eqb_eq in E'. cbn in *. now subst.
  - intros H. exists (u, c). split; [reflexivity|]. apply filter_In. split; [exact H|apply Nat.eqb_refl].
Qed.

Section Inv.
Context {n k : nat} {g : rgraph}.
Hypothesis Hi : rinv n k g [].

Lemma one_parent a b c : In (a, c) (r_edges g) -> In (b, c) (r_edges g) -> a = b.
Proof.
  pose proof (ri_targets _ _ _ _ Hi) as N. revert N. induction (r_edges g) as [|e es IH]; intros N H1 H2; [destruct H1|]. cbn in N. inversion N as [|? ? N1 N2]; subst. destruct H1 as [->|H1], H2 as [E|H2].
  - congruence.
  - exfalso. apply N1. apply in_map_iff. now exists (b, c).
  - subst e. exfalso. apply N1. apply in_map_iff. now exists (a, c).
  - auto.
Qed.

Lemma successors_NoDup u : NoDup (successors g u).
Proof.
  pose proof (ri_targets _ _ _ _ Hi) as N. unfold successors. induction (r_edges g) as [|e es IH]; cbn; [constructor|]. cbn in N. inversion N as [|? ? N1 N2]; subst. destruct (fst e =? u); [|auto]. cbn. constructor; auto. intros X. apply N1. apply in_map_iff in X. destruct X as (x & E & X). apply filter_In in X. apply in_map_iff. exists x. tauto.
Qed.

Lemma next_NoDup layer : NoDup layer -> NoDup (concat (map (successors g) layer)).
Proof.
  induction layer as [|u layer IH]; intros N; cbn; [constructor|]. inversion N as [|? ? N1 N2]; subst. apply NoDup_app_intro; [apply successors_NoDup|auto|].
  intros c H1 H2. apply in_concat in H2. destruct H2 as (s & H2 & H3). apply in_map_iff in H2. destruct H2 as (w & <- & H2). apply successors_In in H1, H3. rewrite (one_parent _ _ _ H1 H3) in N1. contradiction.
Qed.

Lemma bfs_chain fuel : forall layer visited, NoDup layer -> NoDup visited -> incl layer visited -> (forall u, In u visited -> u < length (r_nodes g)) ->
  (forall u, In u visited -> u <> 0 -> exists a, In (a, u) (r_edges g) /\ In a visited /\ ~ In a layer) ->
  length (r_nodes g) < fuel + length visited -> chain g layer (bfs_layers g fuel layer visited).
Proof.
  induction fuel as [|fuel IH]; intros layer visited Hn Hv Hin Hlt Hp Hf.
  - exfalso. assert (X : incl visited (seq 0 (length (r_nodes g)))) by (intros u Hu; apply in_seq; specialize (Hlt u Hu); lia). apply NoDup_incl_length in X; [|exact Hv]. rewrite seq_length in X. lia.
  - cbn [bfs_layers]. destruct layer as [|u0 layer0] eqn:El; [constructor|]. rewrite <- El in *. assert (Hne : layer <> []) by (rewrite El; discriminate). clear El. set (next := concat (map (successors g) layer)).
    assert (Hd : forall c, In c next -> ~ In c visited).
    { intros c Hc Hc'. apply in_concat in Hc. destruct Hc as (s & H1 & H2). apply in_map_iff in H1. destruct H1 as (u & <- & H1). apply successors_In in H2. assert (H0 : c <> 0) by (apply (ri_edges _ _ _ _ Hi) in H2; lia). destruct (Hp c Hc' H0) as (a & A1 & A2 & A3). rewrite (one_parent _ _ _ A1 H2) in A3. contradiction. }
    assert (Hnn : NoDup next) by now apply next_NoDup. rewrite (unvisited_id next visited Hnn Hd). constructor; [exact Hne|]. fold next.
    destruct next as [|c next'] eqn:En; [destruct fuel; constructor|]. rewrite <- En in *. apply IH.
    + now apply next_NoDup.
    + apply NoDup_app_intro; auto using next_NoDup.
    + intros x Hx. apply in_or_app. now left.
    + intros x Hx. apply in_app_or in Hx. destruct Hx as [Hx|Hx]; [|auto]. apply in_concat in Hx. destruct Hx as (s & H1 & H2). apply in_map_iff in H1. destruct H1 as (u & <- & H1). apply successors_In in H2. apply (ri_edges _ _ _ _ Hi) in H2. lia.
    + intros x Hx H0. apply in_app_or in Hx. destruct Hx as [Hx|Hx].
      * apply in_concat in Hx. destruct Hx as (s & H1 & H2). apply in_map_iff in H1. destruct H1 as (u & <- & H1). apply successors_In in H2. exists u. split; [exact H2|]. split; [apply in_or_app; right; auto|]. intros X. apply (Hd u X). auto.
      * destruct (Hp x Hx H0) as (a & A1 & A2 & A3). exists a. split; [exact A1|]. split; [apply in_or_app; now right|]. intros X. exact (Hd a X A2).
    + rewrite app_length, En. cbn [length]. lia.
Qed.

Lemma root_chain : chain g [0] (bfs_layers g (S (length (r_nodes g))) [0] [0]).
Proof.
  apply bfs_chain.
  - repeat constructor; intros [].
  - repeat constructor; intros [].
  - apply incl_refl.
  - intros u [<-|[]]. exact (is_region_lt _ _ _ (ri_root _ _ _ _ Hi)).
  - intros u [<-|[]] X. now contradiction X.
  - cbn. lia.
Qed.

Lemma root_is_0 : region_root g = Some 0.
Proof.
  unfold region_root. pose proof (is_region_lt _ _ _ (ri_root _ _ _ _ Hi)) as H. destruct (length (r_nodes g)) as [|m] eqn:E; [lia|]. cbn [seq filter].
  assert (P0 : predecessors g 0 = []). { unfold predecessors. rewrite filter_none; [reflexivity|]. intros [a b] He. apply (ri_edges _ _ _ _ Hi) in He. apply Nat.eqb_neq. cbn. lia. }
  rewrite P0. cbn [length Nat.eqb]. rewrite filter_none; [reflexivity|]. intros u Hu. apply in_seq in Hu. assert (X : In u (map snd (r_edges g))) by (apply (ri_cover _ _ _ _ Hi); lia). apply in_map_iff in X. destruct X as ([a b] & Eb & X). cbn in Eb. subst b.
  destruct (predecessors g u) eqn:Ep; [|reflexivity]. exfalso. assert (Y : In a (predecessors g u)) by (unfold predecessors; apply in_map_iff; exists (a, u); split; [reflexivity|]; apply filter_In; split; [exact X|apply Nat.eqb_refl]). rewrite Ep in Y. destruct Y.
Qed.

Lemma preds_nil u : u < length (r_nodes g) -> (length (predecessors g u) =? 0) = (u =? 0).
Proof.
  intros Hu. destruct (Nat.eqb_spec u 0) as [->|H0].
  - unfold predecessors. rewrite filter_none; [reflexivity|]. intros [a b] He. apply (ri_edges _ _ _ _ Hi) in He. apply Nat.eqb_neq. cbn. lia.
  - assert (X : In u (map snd (r_edges g))) by (apply (ri_cover _ _ _ _ Hi); lia). apply in_map_iff in X. destruct X as ([a b] & Eb & X). cbn in Eb. subst b. apply Nat.eqb_neq. intros Z. assert (Y : In a (predecessors g u)) by (unfold predecessors; apply in_map_iff; exists (a, u); split; [reflexivity|]; apply filter_In; split; [exact X|apply Nat.eqb_refl]). destruct (predecessors g u); [destruct Y|discriminate].
Qed.

Lemma chain_closed layer layers : chain g layer layers -> incl layer (concat layers) /\ (forall u c, In u (concat layers) -> In (u, c) (r_edges g) -> In c (concat layers)).
Proof.
  induction 1 as [|layer rest Hn Hc [IH1 IH2]]; [split; [apply incl_refl|intros u c []]|]. split.
  - intros u Hu. cbn. apply in_or_app. now left.
  - intros u c Hu He. cbn in *. apply in_or_app. right. apply in_app_or in Hu. destruct Hu as [Hu|Hu]; [|eauto]. apply IH1. apply in_concat. exists (successors g u). split; [now apply in_map|now apply successors_In].
Qed.

Lemma chain_all layers : chain g [0] layers -> forall u, u < length (r_nodes g) -> In u (concat layers).
Proof.
  intros Hc. destruct (chain_closed _ _ Hc) as [H1 H2]. intros u. induction u as [u IH] using (well_founded_induction lt_wf). intros Hu. destruct (Nat.eq_dec u 0) as [->|H0]; [apply H1; now left|].
  assert (X : In u (map snd (r_edges g))) by (apply (ri_cover _ _ _ _ Hi); lia). apply in_map_iff in X. destruct X as ([a b] & Eb & X). cbn in Eb. subst b. pose proof (ri_edges _ _ _ _ Hi _ _ X). apply (H2 a u); [apply IH; lia|exact X].
Qed.
End Inv.

(** ** Visiting children first *)
Section Visit.
Variable kind : nat -> rkind.
Variable uniform1 : nat -> nat -> R.
Variable uniform2 : nat * nat -> nat -> nat -> R.
Variables classes input_units sum_units : nat.
Notation node_layer := (node_layer kind uniform1 uniform2 classes input_units sum_units).
Notation visit_nodes := (visit_nodes kind uniform1 uniform2 classes input_units sum_units).
Notation as_pc := (as_probabilistic_circuit kind uniform1 uniform2 classes input_units sum_units).

Lemma visit_app g a : forall b M, visit_nodes g (a ++ b) M = match visit_nodes g a M with None => None | Some M' => visit_nodes g b M' end.
Proof. induction a as [|u a IH]; intros b M; [reflexivity|]. cbn. destruct (node_layer g M u); [apply IH|reflexivity]. Qed.

Lemma lookup_cons u L M v : lookup_layer ((u, L) :: M) v = if u =? v then Some L else lookup_layer M v.
Proof. unfold lookup_layer. cbn. destruct (u =? v); reflexivity. Qed.

Section Each.
Variable g : rgraph.
Variable Q : nat -> layer -> Prop.
Hypothesis Hstep : forall M u, (forall c, In c (successors g u) -> exists L, lookup_layer M c = Some L /\ Q c L) -> u < length (r_nodes g) -> exists L, node_layer g M u = Some L /\ Q u L.

Definition has (M : list (nat * layer)) (u : nat) : Prop := exists L, lookup_layer M u = Some L /\ Q u L.

Lemma has_cons M u L v : Q u L -> has M v -> has ((u, L) :: M) v.
Proof. intros HQ (L' & E & H). unfold has. rewrite lookup_cons. destruct (Nat.eqb_spec u v) as [->|]; [now exists L|exists L'; auto]. Qed.

Lemma visit_layer layer : forall M S, (forall u, In u S -> has M u) -> (forall u c, In u layer -> In c (successors g u) -> In c S) -> (forall u, In u layer -> u < length (r_nodes g)) ->
  exists M', visit_nodes g layer M = Some M' /\ (forall u, In u S -> has M' u) /\ (forall u, In u layer -> has M' u).
Proof.
  induction layer as [|u layer IH]; intros M T HT Hc Hl.
  - exists M. repeat split; auto. intros u [].
  - cbn. destruct (Hstep M u) as (L & E & HQ).
    + intros c Hcc. apply HT. apply (Hc u c); [now left|exact Hcc].
    + apply Hl. now left.
    + rewrite E. destruct (IH ((u, L) :: M) (u :: T)) as (M' & E' & H1 & H2).
      * intros v [<-|Hv]; [exists L; split; [rewrite lookup_cons, Nat.eqb_refl; reflexivity|exact HQ]|]. apply has_cons; auto.
      * intros v c Hv Hcc. right. apply (Hc v c); [now right|exact Hcc].
      * intros v Hv. apply Hl. now right.
      * exists M'. split; [exact E'|]. split; [intros v Hv; apply H1; now right|]. intros v [<-|Hv]; [apply H1; now left|auto].
Qed.

Lemma visit_chain layer layers : chain g layer layers -> (forall u, In u (concat layers) -> u < length (r_nodes g)) ->
  exists M, visit_nodes g (concat (rev layers)) [] = Some M /\ forall u, In u (concat layers) -> has M u.
Proof.
  induction 1 as [|layer rest Hn Hc IH]; intros Hl.
  - exists []. split; [reflexivity|intros u []].
  - destruct IH as (M & E & HM); [intros u Hu; apply Hl; cbn; apply in_or_app; now right|].
    cbn [rev concat]. rewrite concat_app. cbn [concat]. rewrite app_nil_r, visit_app, E.
    destruct (visit_layer layer M (concat rest) HM) as (M' & E' & H1 & H2).
    + intros u c Hu Hcc. inversion Hc as [E0 E1|? ? Hn' Hc' E0 E1].
      * exfalso. assert (X : In c (concat (map (successors g) layer))) by (apply in_concat; exists (successors g u); split; [now apply in_map|exact Hcc]). rewrite <- E0 in X. destruct X.
      * cbn. apply in_or_app. left. apply in_concat. exists (successors g u). split; [now apply in_map|exact Hcc].
    + intros u Hu. apply Hl. cbn. apply in_or_app. now left.
    + exists M'. split; [exact E'|]. intros u Hu. apply in_app_or in Hu. destruct Hu; auto.
Qed.
End Each.

Lemma visit_fails g u : (forall M, node_layer g M u = None) -> forall order M, In u order -> visit_nodes g order M = None.
Proof.
  intros H. induction order as [|v order IH]; intros M; [intros []|]. intros [->|X]; cbn; [now rewrite H|]. destruct (node_layer g M v); auto.
Qed.

(** ** One node *)
Hypothesis H_u2 : forall s i j, (0 <= uniform2 s i j < 1)%R.

Lemma between_pos u : (0 <= u < 1)%R -> (0 < between (1 / 10) 1 u)%R.
Proof. unfold between. lra. Qed.

Definition good (vs : list nat) (m : nat) (L : layer) : Prop :=
  variables L = vs /\ number_of_nodes L = m /\ sound L /\ scoped L /\ Forall (fun l => validate l = true) (all_layers L).

Lemma wexp_log r : (0 < r)%R -> lw_ok (nlog (Fin r)) /\ wexp (nlog (Fin r)) = r.
Proof. intros H. rewrite nlog_Fin_pos by exact H. cbn. split; [exact Logic.I|]. now apply exp_ln. Qed.

Lemma Rsum_pos l : l <> [] -> (forall r, In r l -> (0 < r)%R) -> (0 < Rsum l)%R.
Proof.
  intros Hn H. assert (G : forall l, (forall r, In r l -> (0 < r)%R) -> (0 <= Rsum l)%R). { clear. induction l as [|r l IH]; intros H; [cbn; lra|]. change (0 <= r + Rsum l)%R. assert (0 <= Rsum l)%R by (apply IH; intros; apply H; now right). assert (0 < r)%R by (apply H; now left). lra. }
  destruct l as [|r l]; [contradiction|]. change (0 < r + Rsum l)%R. assert (0 <= Rsum l)%R by (apply G; intros; apply H; now right). assert (0 < r)%R by (apply H; now left). lra.
Qed.

Lemma leaf_good v : kind v <> RInteger -> kind v <> RSymbolic 0 -> exists L, leaf_layer kind uniform1 uniform2 input_units [v] = Some L /\ good [v] input_units L.
Proof.
  intros H1 H2. unfold leaf_layer. destruct (kind v) as [|states|]; [| |contradiction].
  - match goal with |- exists L, (if validate ?X then _ else _) = _ /\ _ => set (L := X) end.
    assert (V : validate L = true). { unfold L. cbn [validate]. rewrite !map_length, seq_length, repeat_length, Nat.eqb_refl. cbn [andb]. apply forallb_forall. intros x Hx. apply repeat_spec in Hx. subst x. destruct (Rleb_spec 0 (1 / 10)%R); [reflexivity|lra]. }
    rewrite V. exists L. split; [reflexivity|]. split; [reflexivity|]. split; [unfold L; cbn; now rewrite map_length, seq_length|]. split; [unfold L; cbn; rewrite !map_length, seq_length, repeat_length; now split|]. split; [exact Logic.I|]. unfold L in *. cbn [all_layers]. constructor; [exact V|constructor].
  - eexists. split; [reflexivity|]. split; [reflexivity|]. split; [cbn; now rewrite map_length, seq_length|]. split; [|split; [exact Logic.I|cbn; constructor; [reflexivity|constructor]]].
    cbn [sound input_sound]. intros row Hr. apply in_map_iff in Hr. destruct Hr as (i & <- & Hr). split.
    + apply Forall_forall. intros w Hw. apply in_map_iff in Hw. destruct Hw as (j & <- & _). apply wexp_log, between_pos, H_u2.
    + apply Rsum_pos.
      * destruct states; [congruence|]. discriminate.
      * intros r Hr'. apply in_map_iff in Hr'. destruct Hr' as (w & <- & Hw). apply in_map_iff in Hw. destruct Hw as (j & <- & _). destruct (wexp_log _ (between_pos _ (H_u2 (input_units, states) i j))) as [_ ->]. apply between_pos, H_u2.
Qed.

Lemma list_eqb_refl l : list_eqb l l = true.
Proof. unfold list_eqb. rewrite Nat.eqb_refl. cbn. induction l as [|a l IH]; [reflexivity|]. cbn. now rewrite Nat.eqb_refl. Qed.

Lemma combine_map_self {A B} (f : A -> B) l x : In x (combine (map f l) l) -> x = (f (snd x), snd x) /\ In (snd x) l.
Proof. induction l as [|a l IH]; [intros []|]. cbn. intros [<-|H]; [split; [reflexivity|now left]|]. destruct (IH H). split; [assumption|now right]. Qed.

Lemma all_layers_Forall cs P : Forall (fun c => Forall P (all_layers c)) cs -> Forall P (concat (map all_layers cs)).
Proof. intros H. apply Forall_forall. intros x Hx. apply in_concat in Hx. destruct Hx as (l & H1 & H2). apply in_map_iff in H1. destruct H1 as (c & <- & H1). rewrite Forall_forall in H. specialize (H c H1). rewrite Forall_forall in H. auto. Qed.

Lemma total_weight_pos parts : parts <> [] -> Forall (fun p => p <> [] /\ Forall (fun e => 0 < wexp (snd e))%R p) parts -> (0 < total_weight parts)%R.
Proof.
  intros Hn H. unfold total_weight. apply Rsum_pos.
  - destruct parts as [|p parts]; [contradiction|]. inversion H as [|? ? [H1 _] _]; subst. destruct p; [contradiction|discriminate].
  - intros r Hr. apply in_map_iff in Hr. destruct Hr as (e & <- & He). apply in_concat in He. destruct He as (p & H1 & H2). rewrite Forall_forall in H. specialize (H p H1). destruct H as [_ H]. rewrite Forall_forall in H. auto.
Qed.

Lemma sum_good vs units children : children <> [] -> Forall (fun c => exists m, m <> 0 /\ good vs m c) children ->
  exists L, sum_layer uniform2 units children = Some L /\ good vs units L.
Proof.
  intros Hn H. unfold sum_layer. set (f := fun c => mkDense units (number_of_nodes c) (fun i j => nlog (Fin (between (1 / 10) 1 (uniform2 (units, number_of_nodes c) i j))))). set (L := LDense (map f children) children).
  assert (Hv : variables L = vs). { unfold L. cbn. destruct children as [|c cs]; [contradiction|]. inversion H as [|? ? (m & _ & G) _]; subst. apply G. }
  assert (Hm : number_of_nodes L = units). { unfold L. cbn. destruct children as [|c cs]; [contradiction|]. reflexivity. }
  assert (V : validate L = true).
  { unfold validate, L. fold L. rewrite Hm, Hv, map_length. rewrite !andb_true_iff. split; [split|].
    - destruct children; [contradiction|reflexivity].
    - apply forallb_forall. intros w Hw. apply in_map_iff in Hw. destruct Hw as (c & <- & _). cbn. apply Nat.eqb_refl.
    - apply forallb_forall. intros x Hx. apply combine_map_self in Hx. destruct x as [w c]. cbn [snd] in Hx. destruct Hx as [E Hx]. inversion E; subst w. cbn [fst snd f d_cols]. rewrite Nat.eqb_refl. rewrite Forall_forall in H. destruct (H _ Hx) as (m & _ & G). destruct G as [-> _]. apply list_eqb_refl. }
  rewrite V. exists L. split; [reflexivity|]. split; [exact Hv|]. split; [exact Hm|]. split; [|split].
  - unfold L. cbn [sound]. fold L. rewrite Hm. split; [destruct children; [contradiction|discriminate]|]. split; [|split].
    + clear. induction children; constructor; auto.
    + split; [|split].
      * apply Forall_forall. intros m Hx. rewrite map_map in Hx. apply in_map_iff in Hx. now destruct Hx as (c & <- & _).
      * intros r Hr. apply total_weight_pos; [destruct children; [contradiction|discriminate]|]. apply Forall_forall. intros p Hp. rewrite map_map in Hp. apply in_map_iff in Hp. destruct Hp as (c & <- & Hc). rewrite Forall_forall in H. destruct (H c Hc) as (m & M0 & G). unfold dense_edges, f. cbn [d_cols d_at]. destruct G as (_ & Em & _). rewrite Em. split; [destruct m; [contradiction|discriminate]|]. apply Forall_forall. intros e He. apply in_map_iff in He. destruct He as (j & <- & _). cbn [snd]. destruct (wexp_log _ (between_pos _ (H_u2 (units, m) r j))) as [_ ->]. apply between_pos, H_u2.
      * intros r Hr. clear Hn V Hv Hm L. induction H as [|c cs (m & M0 & G) F IH]; cbn [map]; constructor; auto. unfold dense_edges, f. cbn [d_cols d_at]. apply Forall_forall. intros e He. apply in_map_iff in He. destruct He as (j & <- & Hj). apply in_seq in Hj. cbn [fst snd]. split; [|lia]. apply wexp_log, between_pos, H_u2.
    + rewrite fold_and_Forall. apply Forall_forall. intros c Hc. rewrite Forall_forall in H. destruct (H c Hc) as (m & _ & G). apply G.
  - unfold L. cbn [scoped]. split; [exact Hn|]. rewrite Forall_forall in H. split.
    + intros c d Hc Hd. destruct (H c Hc) as (m & _ & -> & _), (H d Hd) as (m' & _ & -> & _). reflexivity.
    + rewrite fold_and_Forall. apply Forall_forall. intros c Hc. destruct (H c Hc) as (m & _ & G). apply G.
  - unfold L. cbn [all_layers]. constructor; [exact V|]. apply all_layers_Forall. apply Forall_forall. intros c Hc. rewrite Forall_forall in H. destruct (H c Hc) as (m & _ & G). apply G.
Qed.

Lemma sset_same m l : l <> [] -> Forall (fun x => x = m) l -> sset_of l = [m].
Proof.
  intros Hn H. assert (HI : forall x, In x (sset_of l) <-> x = m). { intros x. rewrite sset_of_In. rewrite Forall_forall in H. split; [auto|intros ->]. destruct l as [|a l]; [contradiction|]. rewrite <- (H a) by now left. now left. }
  assert (N := strongly_sorted_NoDup _ (sset_of_sorted l)). destruct (sset_of l) as [|a [|b r]] eqn:E.
  - exfalso. apply (HI m). reflexivity.
  - f_equal. apply HI. now left.
  - exfalso. inversion N as [|? ? N1 _]; subst. apply N1. left. transitivity m; [apply HI; right; now left|symmetry; apply HI; now left].
Qed.

Lemma product_good vs ws m children : children <> [] -> StronglySorted lt vs -> Permutation (concat ws) vs -> Forall2 (fun w c => good w m c) ws children ->
  exists L, product_layer children = Some L /\ good vs m L.
Proof.
  intros Hn Hs Hp H. unfold product_layer. rewrite (sset_same m).
  2:{ destruct children; [contradiction|discriminate]. }
  2:{ apply Forall_forall. intros x Hx. apply in_map_iff in Hx. destruct Hx as (c & <- & Hc). clear -H Hc. induction H as [|w d ws' cs G F IH]; [destruct Hc|]. destruct Hc as [->|Hc]; [apply G|auto]. }
  match goal with |- exists L, (if validate ?X then _ else _) = _ /\ _ => set (L := X) end.
  assert (V : validate L = true) by (unfold L; cbn; apply Nat.eqb_refl). rewrite V. exists L. split; [reflexivity|].
  assert (Hv : map variables children = ws). { clear -H. induction H as [|w d ws' cs G F IH]; [reflexivity|]. cbn. f_equal; [apply G|exact IH]. }
  assert (Hc : forall c, In c children -> exists w, good w m c). { clear -H. induction H as [|w d ws' cs G F IH]; intros c X; [destruct X|]. destruct X as [<-|X]; [now exists w|auto]. }
  split; [|split; [reflexivity|split; [|split]]].
  - unfold L. cbn [variables]. rewrite Hv. rewrite <- (sset_of_sorted_id vs Hs). apply sorted_lt_ext; try apply sset_of_sorted. intros v. rewrite !sset_of_In. split; intros X; [apply (Permutation_in _ Hp X)|apply (Permutation_in _ (Permutation_sym Hp) X)].
  - unfold L. cbn [sound s_rows s_entries]. split; [reflexivity|]. split.
    + intros e c He Ec. apply in_concat in He. destruct He as (l & H1 & H2). apply in_map_iff in H1. destruct H1 as (i & <- & H1). apply in_map_iff in H2. destruct H2 as (j & <- & H2). cbn [fst snd] in *. apply nth_error_In in Ec. destruct (Hc c Ec) as (w & _ & -> & _). apply in_seq in H2. lia.
    + rewrite fold_and_Forall. apply Forall_forall. intros c X. destruct (Hc c X) as (w & G). apply G.
  - unfold L. cbn [scoped]. split.
    + intros i j c d v Ec Ed Vc Vd. assert (N : NoDup (concat ws)) by (apply (Permutation_NoDup (Permutation_sym Hp)), strongly_sorted_NoDup, Hs).
      assert (Wc : nth_error ws i = Some (variables c)) by (rewrite <- Hv; now apply map_nth_error). assert (Wd : nth_error ws j = Some (variables d)) by (rewrite <- Hv; now apply map_nth_error).
      exact (concat_NoDup_index ws i j _ _ v N Wc Wd Vc Vd).
    + rewrite fold_and_Forall. apply Forall_forall. intros c X. destruct (Hc c X) as (w & G). apply G.
  - unfold L. cbn [all_layers]. constructor; [exact V|]. apply all_layers_Forall. apply Forall_forall. intros c X. destruct (Hc c X) as (w & G). apply G.
Qed.
End Visit.
