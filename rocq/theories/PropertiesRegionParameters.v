(** * PropertiesRegionParameters: the initial parameters of circuits made from region graphs (C82) *)
From Coq Require Import List Arith Bool Lia Permutation Reals Lra ZArith.
From Verif Require Import Num Graph Spec Circuit EvalFacts Interval JaxLayer JaxSpec JaxMeaning RegionGraph PropertiesRegion.
Import ListNotations.
Local Set Bullet Behavior "Strict Subproofs".
Local Open Scope R_scope.

(** ** Specification *)

(** The probability or weight behind a logarithm lies between 1/10 and 1. *)
Definition weight_in_range (p : num) : Prop := exists w, p = Fin (ln w) /\ 1 / 10 <= w < 1.

(** The ranges the code asks for: locations in [-1, 1), scales (without the minimal scale 1/10) in [1/2, 3), weights in [1/10, 1). *)
Definition in_range (l : layer) : Prop :=
  match l with
  | LInput _ (IGauss loc ls ms) => Forall (fun x => -1 <= x < 1) loc /\ Forall (fun s => 1 / 2 <= exp s < 3) ls /\ Forall (fun m => m = 1 / 10) ms /\
      List.length loc = List.length ls /\ List.length ls = List.length ms
  | LInput _ (IDiscrete ps) => Forall (Forall weight_in_range) ps
  | LDense ws _ => Forall (fun w => forall i j, weight_in_range (d_at w i j)) ws
  | LProd _ _ => True
  | _ => False
  end.

(** Layers of one circuit that do not differ in their parameters although they stand for different parts of it. *)
Definition alike (l l' : layer) : Prop :=
  match l, l' with
  | LInput _ (IGauss loc ls ms), LInput _ (IGauss loc' ls' ms') => loc = loc' /\ ls = ls' /\ ms = ms'
  | LInput _ (IDiscrete ps), LInput _ (IDiscrete ps') => map (@List.length num) ps = map (@List.length num) ps' -> ps = ps'
  | LDense ws _, LDense ws' _ => forall w w', In w ws -> In w' ws' -> d_rows w = d_rows w' -> d_cols w = d_cols w' -> forall i j, d_at w i j = d_at w' i j
  | _, _ => True
  end.

(** The scale of a Gaussian unit follows from its location. *)
Definition scale_follows (l : layer) : Prop :=
  match l with LInput _ (IGauss loc ls _) => Forall2 (fun x s => exp s = 1 / 2 + 5 / 4 * (x + 1)) loc ls | _ => True end.

(** ** What the conversion puts into its layers *)
Section Made.
Variable kind : nat -> rkind.
Variable uniform1 : nat -> nat -> R.
Variable uniform2 : nat * nat -> nat -> nat -> R.
Variables classes input_units sum_units : nat.
Notation leaf_layer := (leaf_layer kind uniform1 uniform2 input_units).
Notation sum_layer := (sum_layer uniform2).
Notation node_layer := (node_layer kind uniform1 uniform2 classes input_units sum_units).
Notation visit_nodes := (visit_nodes kind uniform1 uniform2 classes input_units sum_units).
Notation as_pc := (as_probabilistic_circuit kind uniform1 uniform2 classes input_units sum_units).

Inductive made : layer -> Prop :=
| made_leaf vs L : leaf_layer vs = Some L -> made L
| made_sum units ls L : sum_layer units ls = Some L -> made L
| made_product ls L : product_layer ls = Some L -> made L.

Lemma lookup_In M u L : lookup_layer M u = Some L -> exists u', In (u', L) M.
Proof. unfold lookup_layer. destruct (find _ M) as [[u' L']|] eqn:E; [|discriminate]. intros X. inversion X; subst. apply find_some in E as [E _]. eauto. Qed.

Lemma leaf_all vs L : leaf_layer vs = Some L -> all_layers L = [L].
Proof.
  unfold RegionGraph.leaf_layer. destruct vs as [|v vs]; [discriminate|]. destruct (kind v) as [|n|]; [| |discriminate].
  - cbv zeta. destruct (validate _); [|discriminate]. intros X. inversion X; reflexivity.
  - intros X. inversion X; reflexivity.
Qed.
Lemma sum_all units ls L : sum_layer units ls = Some L -> all_layers L = L :: concat (map all_layers ls).
Proof. unfold RegionGraph.sum_layer. cbv zeta. destruct (validate _); [|discriminate]. intros X. inversion X; reflexivity. Qed.
Lemma product_all ls L : product_layer ls = Some L -> all_layers L = L :: concat (map all_layers ls).
Proof.
  unfold product_layer. destruct (sset_of _) as [|n [|]]; try discriminate. cbv zeta. destruct (validate _); [|discriminate]. intros X. inversion X; reflexivity.
Qed.

Lemma children_made M cs ls : (forall u L, In (u, L) M -> Forall made (all_layers L)) -> mapM (lookup_layer M) cs = Some ls -> Forall made (concat (map all_layers ls)).
Proof.
  intros HM E. apply mapM_Forall2 in E. induction E as [|c L cs ls H1 H2 IH]; [constructor|]. cbn [map concat]. apply Forall_app. split; [|exact IH]. apply lookup_In in H1 as (u & Hu). exact (HM _ _ Hu).
Qed.

Lemma node_made g M u L : (forall u L, In (u, L) M -> Forall made (all_layers L)) -> node_layer g M u = Some L -> Forall made (all_layers L).
Proof.
  intros HM. unfold RegionGraph.node_layer. destruct (nth_error (r_nodes g) u) as [[vs|]|]; [| |discriminate].
  - destruct (successors g u) as [|c cs].
    + intros E. rewrite (leaf_all _ _ E). constructor; [exact (made_leaf _ _ E)|constructor].
    + destruct (mapM _ _) as [ls|] eqn:El; [|discriminate]. intros E. rewrite (sum_all _ _ _ E). constructor; [exact (made_sum _ _ _ E)|]. exact (children_made M _ _ HM El).
  - destruct (mapM _ _) as [ls|] eqn:El; [|discriminate]. intros E. rewrite (product_all _ _ E). constructor; [exact (made_product _ _ E)|]. exact (children_made M _ _ HM El).
Qed.

Lemma visit_made g order : forall M M', (forall u L, In (u, L) M -> Forall made (all_layers L)) -> visit_nodes g order M = Some M' -> forall u L, In (u, L) M' -> Forall made (all_layers L).
Proof.
  induction order as [|x order IH]; intros M M' HM E; cbn [RegionGraph.visit_nodes] in E; [inversion E; subst; exact HM|]. destruct (node_layer g M x) as [L|] eqn:En; [|discriminate].
  apply (IH ((x, L) :: M)); [|exact E]. intros u L' [X|X]; [inversion X; subst; exact (node_made _ _ _ _ HM En)|exact (HM _ _ X)].
Qed.

Lemma circuit_made g L : as_pc g = Some L -> Forall made (all_layers L).
Proof.
  unfold as_probabilistic_circuit. destruct (region_root g) as [root|]; [|discriminate]. destruct (visit_nodes _ _ _) as [M|] eqn:E; [|discriminate]. intros X. apply lookup_In in X as (u & Hu).
  exact (visit_made g _ [] M ltac:(intros ? ? []) E u L Hu).
Qed.

Hypothesis H1 : forall m i, unit_interval (uniform1 m i).
Hypothesis H2 : forall s i j, unit_interval (uniform2 s i j).

Lemma between_range lo hi u : lo < hi -> unit_interval u -> lo <= between lo hi u < hi.
Proof. unfold between, unit_interval. intros H [A B]. split; nra. Qed.

Lemma weight_made s i j : weight_in_range (nlog (Fin (between (1 / 10) 1 (uniform2 s i j)))).
Proof.
  pose proof (between_range (1 / 10) 1 _ ltac:(lra) (H2 s i j)) as B. exists (between (1 / 10) 1 (uniform2 s i j)). split; [|exact B]. cbn [nlog]. destruct (total_order_T _ _) as [[X|X]|X]; try reflexivity; lra.
Qed.

Lemma made_in_range L : made L -> in_range L.
Proof.
  intros [vs L' E|units ls L' E|ls L' E]; revert E.
  - unfold RegionGraph.leaf_layer. destruct vs as [|v vs]; [discriminate|]. destruct (kind v) as [|n|]; [| |discriminate].
    + cbv zeta. destruct (validate _); [|discriminate]. intros X. inversion X; subst. cbn [in_range]. rewrite !map_length, repeat_length, seq_length. repeat split.
      * apply Forall_map, Forall_forall. intros i _. apply between_range; [lra|apply H1].
      * apply Forall_map, Forall_forall. intros i _. pose proof (between_range (5 / 10) 3 _ ltac:(lra) (H1 input_units i)). rewrite exp_ln by lra. lra.
      * apply Forall_forall. intros m Hm. apply repeat_spec in Hm. exact Hm.
    + intros X. inversion X; subst. cbn [in_range]. apply Forall_map, Forall_forall. intros i _. apply Forall_map, Forall_forall. intros j _. apply weight_made.
  - unfold RegionGraph.sum_layer. cbv zeta. destruct (validate _); [|discriminate]. intros X. inversion X; subst. cbn [in_range]. apply Forall_map, Forall_forall. intros c _ i j. cbn [d_at]. apply weight_made.
  - unfold product_layer. destruct (sset_of _) as [|n [|]]; try discriminate. cbv zeta. destruct (validate _); [|discriminate]. intros X. inversion X; subst. exact I.
Qed.

Lemma made_follows L : made L -> scale_follows L.
Proof.
  intros [vs L' E|units ls L' E|ls L' E]; revert E.
  - unfold RegionGraph.leaf_layer. destruct vs as [|v vs]; [discriminate|]. destruct (kind v) as [|n|]; [| |discriminate].
    + cbv zeta. destruct (validate _); [|discriminate]. intros X. inversion X; subst. clear X. cbn [scale_follows]. induction (seq 0 input_units) as [|i l IH]; [constructor|]. cbn [map]. constructor; [|exact IH].
      pose proof (between_range (5 / 10) 3 _ ltac:(lra) (H1 input_units i)). rewrite exp_ln by lra. unfold between. lra.
    + intros X. inversion X; subst. exact I.
  - unfold RegionGraph.sum_layer. cbv zeta. destruct (validate _); [|discriminate]. intros X. inversion X; subst. exact I.
  - unfold product_layer. destruct (sset_of _) as [|n [|]]; try discriminate. cbv zeta. destruct (validate _); [|discriminate]. intros X. inversion X; subst. exact I.
Qed.

Lemma leaf_shapes vs L : leaf_layer vs = Some L ->
  (exists v, L = LInput v (IGauss (map (fun i => between (-1) 1 (uniform1 input_units i)) (seq 0 input_units))
                                    (map (fun i => ln (between (5 / 10) 3 (uniform1 input_units i))) (seq 0 input_units))
                                    (repeat (1 / 10)%R input_units))) \/
  exists v n, L = LInput v (IDiscrete (map (fun i => map (fun j => nlog (Fin (between (1 / 10) 1 (uniform2 (input_units, n) i j)))) (seq 0 n)) (seq 0 input_units))).
Proof.
  unfold RegionGraph.leaf_layer. destruct vs as [|v vs]; [discriminate|]. destruct (kind v) as [|n|]; [| |discriminate].
  - cbv zeta. destruct (validate _); [|discriminate]. intros X. inversion X; subst. left. exists v. reflexivity.
  - intros X. inversion X; subst. right. exists v, n. reflexivity.
Qed.
Lemma sum_shape units ls L : sum_layer units ls = Some L ->
  exists cs, L = LDense (map (fun c => mkDense units (number_of_nodes c) (fun i j => nlog (Fin (between (1 / 10) 1 (uniform2 (units, number_of_nodes c) i j))))) cs) cs.
Proof. unfold RegionGraph.sum_layer. cbv zeta. destruct (validate _); [|discriminate]. intros X. inversion X; subst. eauto. Qed.
Lemma product_shape ls L : product_layer ls = Some L -> exists e cs, L = LProd e cs.
Proof. unfold product_layer. destruct (sset_of _) as [|n [|]]; try discriminate. cbv zeta. destruct (validate _); [|discriminate]. intros X. inversion X; subst. eauto. Qed.

Lemma made_alike L L' : made L -> made L' -> alike L L'.
Proof.
  intros M M'. destruct M as [vs L E|units ls L E|ls L E].
  - apply leaf_shapes in E as [(v & ->)|(v & n & ->)]; destruct M' as [vs' L' E|units' ls' L' E|ls' L' E].
    + apply leaf_shapes in E as [(v' & ->)|(v' & n' & ->)]; cbn; auto.
    + apply sum_shape in E as (cs & ->). exact I.
    + apply product_shape in E as (e & cs & ->). exact I.
    + apply leaf_shapes in E as [(v' & ->)|(v' & n' & ->)]; [exact I|]. cbn [alike]. intros X. destruct input_units as [|k]; [reflexivity|]. cbn [seq map] in X. rewrite !map_length, !seq_length in X. injection X as -> _. reflexivity.
    + apply sum_shape in E as (cs & ->). exact I.
    + apply product_shape in E as (e & cs & ->). exact I.
  - apply sum_shape in E as (cs & ->). destruct M' as [vs' L' E|units' ls' L' E|ls' L' E].
    + apply leaf_shapes in E as [(v' & ->)|(v' & n' & ->)]; exact I.
    + apply sum_shape in E as (cs' & ->). cbn [alike]. intros w w' Hw Hw'. apply in_map_iff in Hw as (c & <- & _). apply in_map_iff in Hw' as (c' & <- & _). cbn [d_rows d_cols d_at]. intros -> -> i j. reflexivity.
    + apply product_shape in E as (e & cs' & ->). exact I.
  - apply product_shape in E as (e & cs & ->). exact I.
Qed.
End Made.

(** ** C82 *)

(** Whatever the region graph: if it is converted, all parameters of all layers are in the ranges asked for. *)
Theorem C82_ranges kind uniform1 uniform2 classes input_units sum_units g L :
  (forall m i, unit_interval (uniform1 m i)) -> (forall s i j, unit_interval (uniform2 s i j)) ->
  as_probabilistic_circuit kind uniform1 uniform2 classes input_units sum_units g = Some L -> Forall in_range (all_layers L).
Proof. intros H1 H2 E. apply circuit_made in E. eapply Forall_impl; [|exact E]. intros l. now apply made_in_range. Qed.

(** Fresh randomness for every layer: layers with other variables or other children need not agree.  That is what one would
    expect of a random initialisation, but one key serves all draws. *)
Definition C82_full : Prop := forall kind classes input_units sum_units g, exists uniform1 uniform2,
  (forall m i, unit_interval (uniform1 m i)) /\ (forall s i j, unit_interval (uniform2 s i j)) /\
  forall L, as_probabilistic_circuit kind uniform1 uniform2 classes input_units sum_units g = Some L ->
  forall v v' loc ls ms loc' ls' ms', In (LInput v (IGauss loc ls ms)) (all_layers L) -> In (LInput v' (IGauss loc' ls' ms')) (all_layers L) -> v <> v' -> loc <> loc'.

(** All layers of the same shape start with the same parameters, and the scales of the Gaussians follow from their locations. *)
Theorem C82_repeated kind uniform1 uniform2 classes input_units sum_units g L :
  (forall m i, unit_interval (uniform1 m i)) ->
  as_probabilistic_circuit kind uniform1 uniform2 classes input_units sum_units g = Some L ->
  (forall l l', In l (all_layers L) -> In l' (all_layers L) -> alike l l') /\ Forall scale_follows (all_layers L).
Proof.
  intros H1 E. apply circuit_made in E. split.
  - rewrite Forall_forall in E. intros l l' Hl Hl'. exact (made_alike _ _ _ _ _ _ (E _ Hl) (E _ Hl')).
  - eapply Forall_impl; [|exact E]. intros l. now apply made_follows.
Qed.

(** Two variables, two Gaussian regions: the same locations, whatever the generator draws. *)
Definition pair_graph : rgraph := mkRG [Region [0; 1]; Partition; Region [0]; Region [1]]%nat [(0, 1); (1, 2); (1, 3)]%nat.
Lemma pair_converts u1 u2 : exists w e loc ls ms, as_probabilistic_circuit (fun _ => RContinuous) u1 u2 1 1 1 pair_graph =
  Some (LDense w [LProd e [LInput 0 (IGauss loc ls ms); LInput 1 (IGauss loc ls ms)]]).
Proof.
  assert (B : Rleb 0 (1 / 10) = true) by (destruct (Rleb_spec 0 (1 / 10)); [reflexivity|lra]).
  unfold as_probabilistic_circuit. do 5 eexists. cbn. rewrite B. cbn. reflexivity.
Qed.
Theorem C82_refuted : ~ C82_full.
Proof.
  intros H. destruct (H (fun _ => RContinuous) 1%nat 1%nat 1%nat pair_graph) as (u1 & u2 & _ & _ & K). destruct (pair_converts u1 u2) as (w & e & loc & ls & ms & E).
  apply (K _ E 0%nat 1%nat loc ls ms loc ls ms); [cbn; auto|cbn; auto|lia|reflexivity].
Qed.

Example C82_case : exists L, as_probabilistic_circuit (fun _ => RContinuous) (fun _ _ => 1 / 2) (fun _ _ _ => 1 / 3) 1 1 1 pair_graph = Some L /\ Forall in_range (all_layers L) /\ Forall scale_follows (all_layers L).
Proof.
  destruct (pair_converts (fun _ _ => 1 / 2) (fun _ _ _ => 1 / 3)) as (w & e & loc & ls & ms & E). eexists. split; [exact E|]. split.
  - refine (C82_ranges _ _ _ _ _ _ _ _ _ _ E); intros; unfold unit_interval; lra.
  - refine (proj2 (C82_repeated _ _ _ _ _ _ _ _ _ E)); intros; unfold unit_interval; lra.
Qed.
Print Assumptions C82_ranges.
Print Assumptions C82_repeated.
Print Assumptions C82_refuted.
