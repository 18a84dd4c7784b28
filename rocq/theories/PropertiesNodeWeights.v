(** * Property C68: the weights that [nodes_weights] collects *)
From Coq Require Import List Arith Bool Lia Reals Lra Permutation.
From Verif Require Import Num Graph GraphFacts Spec Circuit NodeWeights NodeWeightsFacts PropertiesSimplify.
Import ListNotations.
Local Set Bullet Behavior "Strict Subproofs".
Local Open Scope nat_scope.

(** [ws] lists the weights of exactly the paths from [r] to [u], each path once. *)
Definition weights_of_paths {D} (g : graph D) (w : edge -> R) (r u : id) (ws : list R) : Prop :=
  exists ps, NoDup ps /\ (forall es, In es ps <-> path g r u es) /\ Permutation ws (map (path_weight w) ps).

(** What an edge contributes: its weight below a sum unit, one below a product unit. *)
Definition true_weight (e : edge) : R := match e_lw e with Some lw => wexp lw | None => 1%R end.

Definition C68_full : Prop := forall (D : Type) (g : graph D) r, wf g -> acyclic g -> root g = Some r ->
  exists m, nodes_weights no_attribute g = Some m /\ forall u, weights_of_paths g true_weight r u (get_weights m u).

(** The same if the edges had the attribute that the code looks up. *)
Definition C68_paths_full : Prop := forall (D : Type) (attr : edge -> option R) (g : graph D) r, wf g -> acyclic g -> root g = Some r ->
  exists m, nodes_weights attr g = Some m /\ forall u, weights_of_paths g (fun e => match attr e with Some w => w | None => 1%R end) r u (get_weights m u).

(** The search ends, lists weights of different paths only, and lists at least one for every unit. *)
Theorem C68_sound {D} (attr : edge -> option R) (g : graph D) r : wf g -> root g = Some r ->
  exists m, nodes_weights attr g = Some m /\ forall u, exists ps, NoDup ps /\ (forall es, In es ps -> path g r u es) /\ (reach g r u -> ps <> []) /\
    get_weights m u = map (path_weight (fun e => match attr e with Some w => w | None => 1%R end)) ps.
Proof.
  intros Hwf Hr. destruct (root_spec g r Hr) as [Hin _]. unfold nodes_weights. rewrite Hr.
  destruct (search_spec attr g r Hwf Hin False (fun _ => 0)) as (m & E & H); [tauto|]. exists m. split; [exact E|]. intros u. destruct (H u) as (ps & H1 & H2 & H3 & H4 & _). exists ps. auto.
Qed.

(** When all paths to a unit have the same length, no path is missing. *)
Theorem C68_layered_partial {D} (attr : edge -> option R) (g : graph D) r : wf g -> root g = Some r -> graded g r ->
  exists m, nodes_weights attr g = Some m /\ forall u, weights_of_paths g (fun e => match attr e with Some w => w | None => 1%R end) r u (get_weights m u).
Proof.
  intros Hwf Hr (lv & Hlv). destruct (root_spec g r Hr) as [Hin _]. unfold nodes_weights. rewrite Hr.
  destruct (search_spec attr g r Hwf Hin True lv) as (m & E & H); [auto|]. exists m. split; [exact E|]. intros u. destruct (H u) as (ps & H1 & H2 & H3 & _ & H4). exists ps.
  split; [exact H2|]. split; [intros es; split; auto|]. rewrite H1. apply Permutation_refl.
Qed.

(** With the attributes that the code writes, every entry is a one: the list counts the paths. *)
Theorem C68_ones_partial {D} (g : graph D) r : wf g -> root g = Some r -> graded g r ->
  exists m, nodes_weights no_attribute g = Some m /\
    forall u, exists ps, NoDup ps /\ (forall es, In es ps <-> path g r u es) /\ get_weights m u = repeat 1%R (length ps).
Proof.
  intros Hwf Hr Hg. destruct (C68_layered_partial no_attribute g r Hwf Hr Hg) as (m & E & H). exists m. split; [exact E|]. intros u. destruct (H u) as (ps & H1 & H2 & H3). exists ps.
  split; [exact H1|]. split; [exact H2|].
  assert (One : forall es, path_weight (fun e => match no_attribute e with Some w => w | None => 1%R end) es = 1%R).
  { intros es. unfold path_weight. cbn [no_attribute]. induction es as [|e es IH]; [reflexivity|]. cbn [map]. unfold Rprod in *. cbn [fold_right]. rewrite IH. lra. }
  rewrite (map_ext _ (fun _ => 1%R) One) in H3. pose proof (Permutation_length H3) as Hl. rewrite map_length in Hl. rewrite <- Hl.
  assert (K : forall x, In x (get_weights m u) -> x = 1%R) by (intros x Hx; apply (Permutation_in _ H3) in Hx; apply in_map_iff in Hx as (? & <- & _); reflexivity).
  clear -K. induction (get_weights m u) as [|x l IH]; [reflexivity|]. cbn. rewrite (K x) by now left. f_equal. apply IH. intros y Hy. apply K. now right.
Qed.

(** ** The full statements are false *)

(** Reading ["weight"] instead of ["log_weight"] loses the weights. *)
Definition coin : graph bool := mkGraph [(0, USum); (1, ULeaf true); (2, ULeaf false)] [mkEdge 0 1 (Some (Fin (ln (1 / 4)))); mkEdge 0 2 (Some (Fin (ln (3 / 4))))].

Lemma coin_ok : wf coin /\ acyclic coin /\ root coin = Some 0 /\ graded coin 0.
Proof.
  split; [concrete_wf|]. split; [exists (fun u => 3 - u); on_edges|]. split; [reflexivity|]. exists (fun u => match u with 0 => 0 | _ => 1 end). split; [reflexivity|].
  intros e H _. repeat destruct H as [<-|H]; cbn; try reflexivity. destruct H.
Qed.

Theorem C68_weights_refuted : ~ C68_full.
Proof.
  intros H. destruct coin_ok as (H1 & H2 & H3 & H4). destruct (H bool coin 0 H1 H2 H3) as (m & E & K). cbn in E. injection E as <-. destruct (K 1) as (ps & N & P & Q). cbn in Q.
  assert (Hp : In [mkEdge 0 1 (Some (Fin (ln (1 / 4))))] ps).
  { apply P. apply (path_snoc coin 0 0 (mkEdge 0 1 (Some (Fin (ln (1 / 4))))) []); [constructor|now left|reflexivity]. }
  apply (in_map (path_weight true_weight)) in Hp. apply (Permutation_in _ (Permutation_sym Q)) in Hp. destruct Hp as [Hp|[]]. revert Hp.
  unfold path_weight, true_weight. cbn [map e_lw wexp]. rewrite exp_ln by lra. unfold Rprod. cbn [fold_right]. lra.
Qed.

(** A unit that is visited before its last parent passes on an incomplete list. *)
Definition late : graph bool := mkGraph [(0, UProd); (1, UProd); (2, UProd); (3, ULeaf true)]
  [mkEdge 0 1 None; mkEdge 0 2 None; mkEdge 2 1 None; mkEdge 1 3 None].

Lemma late_ok : wf late /\ acyclic late /\ root late = Some 0.
Proof. split; [concrete_wf|]. split; [exists (fun u => match u with 0 => 3 | 1 => 1 | 2 => 2 | _ => 0 end); on_edges|reflexivity]. Qed.

Theorem C68_paths_refuted : ~ C68_paths_full.
Proof.
  intros H. destruct late_ok as (H1 & H2 & H3). destruct (H bool no_attribute late 0 H1 H2 H3) as (m & E & K). cbn in E. injection E as <-. destruct (K 3) as (ps & N & P & Q). cbn in Q.
  assert (P1 : In [mkEdge 0 1 None; mkEdge 1 3 None] ps).
  { apply P. apply (path_snoc late 0 1 (mkEdge 1 3 None) [mkEdge 0 1 None]); [|cbn; tauto|reflexivity]. apply (path_snoc late 0 0 (mkEdge 0 1 None) []); [constructor|cbn; tauto|reflexivity]. }
  assert (P2 : In [mkEdge 0 2 None; mkEdge 2 1 None; mkEdge 1 3 None] ps).
  { apply P. apply (path_snoc late 0 1 (mkEdge 1 3 None) [mkEdge 0 2 None; mkEdge 2 1 None]); [|cbn; tauto|reflexivity].
    apply (path_snoc late 0 2 (mkEdge 2 1 None) [mkEdge 0 2 None]); [|cbn; tauto|reflexivity]. apply (path_snoc late 0 0 (mkEdge 0 2 None) []); [constructor|cbn; tauto|reflexivity]. }
  apply Permutation_length in Q. rewrite map_length in Q. cbn in Q. destruct ps as [|a [|b ps]]; try discriminate. destruct P1 as [->|[]]. destruct P2 as [P2|[]]. discriminate.
Qed.

(** ** Cases that meet the hypotheses *)
Example coin_weights : exists m, nodes_weights (fun e => option_map wexp (e_lw e)) coin = Some m /\ get_weights m 2 = [(1 * exp (ln (3 / 4)))%R] /\
  weights_of_paths coin (fun e => match option_map wexp (e_lw e) with Some w => w | None => 1%R end) 0 2 (get_weights m 2).
Proof.
  destruct coin_ok as (H1 & _ & H3 & H4). destruct (C68_layered_partial (fun e => option_map wexp (e_lw e)) coin 0 H1 H3 H4) as (m & E & K). exists m. split; [exact E|]. split; [|apply K].
  cbn in E. injection E as <-. reflexivity.
Qed.

(** Two parents of one unit on the same level: two paths. *)
Definition diamond : graph bool := mkGraph [(0, UProd); (1, UProd); (2, UProd); (3, ULeaf true)]
  [mkEdge 0 1 None; mkEdge 0 2 None; mkEdge 1 3 None; mkEdge 2 3 None].

Example diamond_weights : exists m, nodes_weights no_attribute diamond = Some m /\ get_weights m 3 = [(1 * 1 * 1)%R; (1 * 1 * 1)%R] /\
  exists ps, NoDup ps /\ (forall es, In es ps <-> path diamond 0 3 es) /\ get_weights m 3 = repeat 1%R (length ps).
Proof.
  assert (H1 : wf diamond) by concrete_wf. assert (H2 : graded diamond 0).
  { exists (fun u => match u with 0 => 0 | 1 | 2 => 1 | _ => 2 end). split; [reflexivity|]. intros e H _. repeat destruct H as [<-|H]; cbn; try reflexivity. destruct H. }
  destruct (C68_ones_partial diamond 0 H1 eq_refl H2) as (m & E & K). exists m. split; [exact E|]. split; [|apply K]. cbn in E. injection E as <-. reflexivity.
Qed.

Print Assumptions C68_sound.
Print Assumptions C68_layered_partial.
Print Assumptions C68_ones_partial.
Print Assumptions C68_weights_refuted.
Print Assumptions C68_paths_refuted.
