(** * Properties C08, C09 and C12 for circuits with shared units *)
From Coq Require Import List Arith Bool Lia Reals Lra ZArith.
From Verif Require Import Num Graph GraphFacts Spec SpecFacts Circuit EvalFacts VarFacts PropertiesQuery Interval GaussInt Dist DistFacts CondFacts
  TreeProb PropertiesProb PropertiesDist Simplify SimplifyFacts TreeLocal PropertiesSimplify Restrict MarginalFacts PropertiesMarginal
  Conditional ConditionalFacts CondPass CondMain LeafCond CondBayes PropertiesConditional CondDag.
Import ListNotations.
Local Open Scope R_scope.
Local Set Bullet Behavior "Strict Subproofs".

(** A valid normalised circuit over the library's distributions whose units may have several parents. *)
Record valid_shared (g : graph dist) (t : pc dist) : Prop := {
  vs_layered : layered_circuit g t; vs_acyclic : acyclic g; vs_norm : normalised t;
  vs_smooth : smooth dist_vars t; vs_dec : decomposable dist_vars t; vs_ok : all_leaves dist_ok t }.

(** Trees are a special case. *)
Lemma valid_tree_shared g r t : valid_tree g r t -> fin_sums t -> valid_shared g t.
Proof.
  intros [T L U N Sm Dc O] F. constructor; auto; [|apply T]. apply (tree_layered g r t). constructor; auto.
Qed.

(** ** C08 *)

(** The claim: conditioning answers, with the probability of the event, and None iff that is 0. *)
Definition C08_shared_full : Prop := forall e g t, valid_shared g t -> fin_sums t -> event_ok t e ->
  all_leaves (fun d => no_points d (e (dvar d))) t -> conditional_returns e g (prob_of e t).

(** Proved part: an event of probability 0 answers (None, -inf), and whenever conditioning answers at all, the number is the
    probability of the event and the circuit is None iff that is 0.  Missing: that conditioning answers for events of
    positive probability; that is false with shared units. *)
Theorem C08_shared_partial e g t : valid_shared g t -> fin_sums t -> event_ok t e -> all_leaves (fun d => no_points d (e (dvar d))) t ->
  answers g e (prob_of e t) /\
  forall st, (prob_of e t = 0 -> conditional_on e g st = Some (None, NInf)) /\
    (forall res lp, conditional_on e g st = Some (res, lp) -> nexp lp = Fin (prob_of e t) /\ (res = None <-> prob_of e t = 0)).
Proof.
  intros [L A N Sm Dc O] F He Hn. split; [apply answers_semR; auto; now apply fin_ok|]. intros st.
  assert (Hc : all_leaves cap_ok t).
  { eapply all_leaves_impl; [|exact (all_leaves_and _ _ _ O Hn)]. simpl. intros [v i|v loc c|v mu s|v i mu s|v p|v p] [_ X]; simpl in *; auto. exists 1. split; [auto|lra]. }
  assert (Hg : all_leaves (leaf_good (fun d => leaf_cond d (e (dvar d))) (fun d => Fin (pmass d (e (dvar d)))) dist_vars (leaf_on e)) t).
  { eapply all_leaves_impl; [|exact (all_leaves_and _ _ _ O (all_leaves_and _ _ _ He Hc))]. simpl. intros d [X [Y Z]]. now apply leaf_good_pmass. }
  assert (Ep : semN (fun d => Fin (pmass d (e (dvar d)))) t = Fin (prob_of e t)).
  { rewrite (semN_semR (fun d => pmass d (e (dvar d))) t (fin_ok _ F)). f_equal. unfold prob_of. apply semR_ext.
    eapply all_leaves_impl; [|exact (all_leaves_and _ _ _ O (all_leaves_and _ _ _ He Hn))]. simpl. intros d [X [Y Z]]. now apply pmass_prob. }
  destruct (conditional_layered _ _ dist_vars _ g t st L A F Hg Sm Dc) as [C1 C2]. rewrite Ep in C1, C2. split.
  - intros E. apply C1. now rewrite E.
  - intros res lp E. destruct (C2 res lp E) as [X Y]. split; [exact X|]. rewrite Y. split; [intros Z; now injection Z|intros ->; reflexivity].
Qed.

(** ** A shared sum unit *)

Definition zero : dist := DSym 0 [(0%Z, 1)].
Definition one : dist := DSym 0 [(1%Z, 1)].
Definition whole : sevent := fun _ => ESym [0%Z; 1%Z].
Definition ones : sevent := fun _ => ESym [1%Z].

(** [shared_sum] over the library's distributions: half of the mass of each of the units 1 and 2 is the unit 3. *)
Definition shared : graph dist :=
  mkGraph [(0, USum); (1, USum); (2, USum); (3, USum); (4, ULeaf zero); (5, ULeaf zero); (6, ULeaf one); (7, ULeaf one)]%nat
    [mkEdge 0 1 h2; mkEdge 0 2 h2; mkEdge 1 3 h2; mkEdge 1 4 h2; mkEdge 2 3 h2; mkEdge 2 5 h2; mkEdge 3 6 h2; mkEdge 3 7 h2]%nat.

Definition shared_tree : pc dist :=
  let s := PSum [(w2, PLeaf one); (w2, PLeaf one)] in
  PSum [(w2, PSum [(w2, s); (w2, PLeaf zero)]); (w2, PSum [(w2, s); (w2, PLeaf zero)])].

Lemma zero_one_ok : dist_ok zero /\ dist_ok one.
Proof. split; cbn; repeat split; try lra; repeat constructor; cbn; try lra; intuition discriminate. Qed.

Example shared_valid : valid_shared shared shared_tree /\ fin_sums shared_tree /\ event_ok shared_tree whole /\ event_ok shared_tree ones.
Proof.
  split; [|split; [cbn; repeat split; auto; repeat constructor|split; cbn; repeat split; repeat constructor; cbn; intuition discriminate]].
  constructor.
  - split; [concrete_wf|]. split; [intros e d H; repeat destruct H as [<-|H]; cbn; try discriminate; destruct H|].
    exists 0%nat. split; [reflexivity|]. split.
    + exists (fun u => if u =? 0 then 0 else if u <=? 2 then 1 else if u <=? 5 then 2 else 3)%nat. split; [reflexivity|].
      intros e H _. repeat destruct H as [<-|H]; cbn; try reflexivity. destruct H.
    + unfold shared_tree. unf.
  - exists (fun u => 8 - u)%nat. on_edges.
  - cbn. repeat split; try (repeat constructor); cbn; rewrite exp_ln by lra; lra.
  - cbn. repeat split; intuition.
  - cbn. tauto.
  - destruct zero_one_ok as [Hz Ho]. unfold shared_tree. cbn [all_leaves fold_right map snd]. tauto.
Qed.

Lemma shared_no_points e : all_leaves (fun d => no_points d (e (dvar d))) shared_tree.
Proof. cbn. tauto. Qed.

(** ** C12 *)
Definition C12_shared_full : Prop := forall vs g t, valid_shared g t -> fin_sums t -> marginal_correct vs g t.

(** What simplification leaves of [shared]. *)
Definition quarter : num := Fin (ln (1/2) + ln (1/2)).
Definition eighth : num := Fin (ln (1/2) + ln (1/2) + ln (1/2)).
Definition shared_left (k : num -> num) : graph dist :=
  mkGraph [(0, USum); (4, ULeaf zero); (5, ULeaf zero); (6, ULeaf one); (7, ULeaf one)]%nat
    [mkEdge 0 5 (Some (k w2)); mkEdge 0 4 (Some (k quarter)); mkEdge 0 6 (Some (k eighth)); mkEdge 0 7 (Some (k eighth))]%nat.
Definition shared_left_tree (k : num -> num) : pc dist :=
  PSum [(k w2, PLeaf zero); (k quarter, PLeaf zero); (k eighth, PLeaf one); (k eighth, PLeaf one)].

Lemma shared_left_layered k : layered_circuit (shared_left k) (shared_left_tree k).
Proof.
  split; [concrete_wf|]. split; [intros e d H; repeat destruct H as [<-|H]; cbn; try discriminate; destruct H|].
  exists 0%nat. split; [reflexivity|]. split.
  - exists (fun u => if u =? 0 then 0 else 1)%nat. split; [reflexivity|]. intros e H _. repeat destruct H as [<-|H]; cbn; try reflexivity. destruct H.
  - unfold shared_left_tree. unf.
Qed.

Lemma prob_ones : probR zero (ones 0%nat) = 0 /\ probR one (ones 0%nat) = 1.
Proof. split; cbn; unfold ind; cbn; rb; cbn; lra. Qed.

(** The event "1" has probability 1/2 in [shared] and 1/4 in what is left. *)
Lemma shared_before : answers shared ones (1/2).
Proof.
  destruct shared_valid as [V [F [_ E]]].
  replace (1/2) with (semR (fun d => probR d (ones (dvar d))) shared_tree); [apply answers_semR; auto; [apply V|now apply fin_ok|apply V]|].
  destruct prob_ones as [P0 P1]. unfold shared_tree. cbn [semR map Rsum fold_right fst snd]. change (dvar zero) with 0%nat. change (dvar one) with 0%nat.
  rewrite P0, P1. unfold w2. cbn [wexp]. rewrite exp_ln by lra. lra.
Qed.

Lemma shared_after_ones k : (k = (fun w => w) \/ k = (fun w => nsub w (Fin 0))) -> answers (shared_left k) ones (1/4).
Proof.
  intros Hk. assert (Hf : forall x, k (Fin x) = Fin x).
  { intros x. destruct Hk as [-> | ->]; [reflexivity|]. cbn. f_equal. ring. }
  destruct zero_one_ok as [Hz Ho]. replace (1/4) with (semR (fun d => probR d (ones (dvar d))) (shared_left_tree k)).
  - apply answers_semR; [apply shared_left_layered| | |].
    + unfold shared_left_tree, w2, quarter, eighth. rewrite !Hf. cbn. repeat split; repeat constructor.
    + unfold shared_left_tree. cbn [all_leaves fold_right map snd]. tauto.
    + cbn. repeat split; repeat constructor; cbn; intuition discriminate.
  - destruct prob_ones as [P0 P1]. unfold shared_left_tree. cbn [semR map Rsum fold_right fst snd]. change (dvar zero) with 0%nat. change (dvar one) with 0%nat.
    rewrite P0, P1. unfold w2, quarter, eighth. rewrite !Hf. cbn [wexp]. rewrite !exp_plus, exp_ln by lra. lra.
Qed.

Lemma answers_unique g e p q : answers g e p -> answers g e q -> p = q.
Proof. intros H1 H2. destruct (H1 empty_store) as [s1 E1], (H2 empty_store) as [s2 E2]. rewrite E1 in E2. now injection E2. Qed.

(** The marginal over all variables of the circuit, which should not change anything, moves a quarter of the mass. *)
Theorem C12_shared_refuted : ~ C12_shared_full.
Proof.
  intros H. destruct shared_valid as [V [F [_ E1]]]. destruct (H [0%nat] _ _ V F) as [res [H1 [_ H2]]].
  assert (Hm : marginal_in_place (fun _ => false) marginal1 [0%nat] shared = Some (Some (shared_left (fun w => w)))) by reflexivity.
  rewrite Hm in H1. injection H1 as <-. destruct (H2 _ eq_refl) as [_ H3]. destruct (H3 ones) as [p [A1 A2]]; [exact E1| |].
  { cbn. repeat split; intros X; exfalso; apply X; now left. }
  pose proof (answers_unique _ _ _ _ A1 shared_before) as X1.
  pose proof (answers_unique _ _ _ _ A2 (shared_after_ones _ (or_introl eq_refl))) as X2. lra.
Qed.

(** ** C09 *)
Definition C09_shared_full : Prop := forall e g t, valid_shared g t -> fin_sums t -> event_ok t e -> 0 < prob_of e t ->
  all_leaves (fun d => no_points d (e (dvar d))) t -> all_leaves (fun d => one_piece d (e (dvar d))) t ->
  even (fun d => probR d (e (dvar d))) t -> follows_bayes e g t.

Lemma sym_whole v k : (k = 0%Z \/ k = 1%Z) -> leaf_cond (DSym v [(k, 1)]) (whole v) = Some (LOne (DSym v [(k, 1)]) (Fin 0)).
Proof.
  intros Hk. assert (Hf : finish_discrete (DSym v) [(k, 1)] = (Some (DSym v [(k, 1)]), Fin 0)).
  { unfold finish_discrete, vals, dnormalize. cbn [map snd fst Rsum fold_right]. destruct (Reqb_spec (1 + 0) 0); [lra|]. f_equal.
    - do 2 f_equal. unfold vals. cbn. f_equal. f_equal. field.
    - unfold nlog. destruct (total_order_T (1 + 0) 0) as [[?|?]|?]; try lra. f_equal. replace (1 + 0) with 1 by ring. apply ln_1. }
  unfold leaf_cond, whole, discrete_cond. unfold sym_cond_dict. destruct Hk as [-> | ->]; cbn; rb; try lra; cbn; now rewrite Hf.
Qed.

Lemma halves_zero : logsumexp [nadd w2 (Fin 0); nadd w2 (Fin 0)] = Fin 0.
Proof.
  unfold logsumexp, w2. cbn -[nlog]. rewrite ?Rplus_0_r, exp_ln by lra. replace (1/2 + 1/2) with 1 by lra. unfold nlog.
  destruct (total_order_T 1 0) as [[?|?]|?]; try lra. now rewrite ln_1.
Qed.

Lemma left_zero : logsumexp [w2; quarter; eighth; eighth] = Fin 0.
Proof.
  unfold logsumexp, w2, quarter, eighth. cbn -[nlog]. rewrite ?Rplus_0_r, !exp_plus, exp_ln by lra. replace (1/2 + _) with 1 by lra. unfold nlog.
  destruct (total_order_T 1 0) as [[?|?]|?]; try lra. now rewrite ln_1.
Qed.

Lemma leaf_step (lc : dist -> option (lres dist)) g st nx u d : node_kind g u = Some (ULeaf d) -> lc d = Some (LOne d (Fin 0)) -> set_kind g u (ULeaf d) = g ->
  unit_conditional lc (g, st, nx) u = Some (g, upd st u (Fin 0), nx).
Proof. intros Hk Hl Hs. unfold unit_conditional. cbn [fst snd]. rewrite Hk. unfold leaf_conditional. now rewrite Hl, Hs. Qed.

Lemma sum_step (lc : dist -> option (lres dist)) g (st : store num) nx u a b : node_kind g u = Some USum -> out_edges g u = [mkEdge u a h2; mkEdge u b h2] ->
  st a = Some (Fin 0) -> st b = Some (Fin 0) -> unit_conditional lc (g, st, nx) u = Some (g, upd st u (Fin 0), nx).
Proof.
  intros Hk Ho Ha Hb. unfold unit_conditional. cbn [fst snd]. rewrite Hk. unfold eval_unit. rewrite Hk. unfold log_weighted_subcircuits. rewrite Ho.
  cbn -[logsumexp nadd]. rewrite Ha, Hb. unfold sum_log_forward. cbn [map fst snd]. change (Fin (ln (1/2))) with w2. now rewrite halves_zero.
Qed.

Lemma shared_conditional : conditional_on whole shared empty_store = Some (Some (shared_left (fun w => nsub w (Fin 0))), Fin 0).
Proof.
  unfold conditional_on. set (lc := fun d => leaf_cond d (whole (dvar d))).
  assert (L1 : lc zero = Some (LOne zero (Fin 0))) by (apply sym_whole; auto). assert (L2 : lc one = Some (LOne one (Fin 0))) by (apply sym_whole; auto).
  clearbody lc. unfold conditional_simple. change (bottom_up shared) with (Some [6;7;3;4;5;1;2;0]%nat). cbn [foldM].
  do 2 (erewrite leaf_step; [|reflexivity|exact L2|reflexivity]). erewrite (sum_step _ _ _ _ 3%nat); [|reflexivity..].
  do 2 (erewrite leaf_step; [|reflexivity|exact L1|reflexivity]). do 3 (erewrite sum_step; [|reflexivity..]).
  set (st := upd _ _ _).
  assert (Hst : forall u, In u [6;7;3;4;5;1;2;0]%nat -> st u = Some (Fin 0)) by (intros u Hu; repeat destruct Hu as [<-|Hu]; reflexivity || destruct Hu).
  clearbody st. unfold conditional_finish. change (root shared) with (Some 0%nat). change (bottom_up shared) with (Some [6;7;3;4;5;1;2;0]%nat).
  assert (Hfi : filter (result_is_ninf st) [6;7;3;4;5;1;2;0]%nat = []).
  { cbn [filter]. unfold result_is_ninf. rewrite !Hst by (cbn; tauto). reflexivity. }
  cbv beta iota. rewrite Hfi. cbn [foldM]. cbn [has_node shared node_ids g_nodes map fst existsb Nat.eqb orb negb].
  assert (Hs : match remove_unreachable_nodes shared 0%nat with None => None | Some g3 => simplify (fun _ => false) g3 end = Some (shared_left (fun w => w))) by reflexivity.
  destruct (remove_unreachable_nodes shared 0%nat) as [g3|]; [|discriminate]. rewrite Hs.
  assert (Hn : normalize (shared_left (fun w => w)) = Some (shared_left (fun w => nsub w (logsumexp [w2; quarter; eighth; eighth])))) by reflexivity.
  rewrite Hn, left_zero, Hst by (cbn; tauto). reflexivity.
Qed.

Theorem C09_shared_refuted : ~ C09_shared_full.
Proof.
  intros H. destruct shared_valid as [V [F [E0 E1]]]. destruct zero_one_ok as [Hz Ho].
  assert (P : probR zero (whole 0%nat) = 1 /\ probR one (whole 0%nat) = 1) by (split; cbn; unfold ind; cbn; rb; cbn; lra). destruct P as [P0 P1].
  assert (H3 : semR (fun d => probR d (whole (dvar d))) (PSum [(w2, PLeaf one); (w2, PLeaf one)]) = 1).
  { cbn [semR map Rsum fold_right fst snd]. change (dvar one) with 0%nat. rewrite P1. unfold w2. cbn [wexp]. rewrite exp_ln by lra. lra. }
  assert (H1 : semR (fun d => probR d (whole (dvar d))) (PSum [(w2, PSum [(w2, PLeaf one); (w2, PLeaf one)]); (w2, PLeaf zero)]) = 1).
  { cbn [semR map Rsum fold_right fst snd]. change (dvar one) with 0%nat. change (dvar zero) with 0%nat. rewrite P0, P1. unfold w2. cbn [wexp]. rewrite exp_ln by lra. lra. }
  assert (Hp : prob_of whole shared_tree = 1).
  { unfold prob_of, shared_tree. remember (PSum [(w2, PSum [(w2, PLeaf one); (w2, PLeaf one)]); (w2, PLeaf zero)]) as x. cbn [semR map Rsum fold_right fst snd]. rewrite H1.
    unfold w2. cbn [wexp]. rewrite exp_ln by lra. lra. }
  destruct (H whole _ _ V F E0 ltac:(lra) (shared_no_points _)) with (st := @empty_store num) as [q [lp [A1 A2]]].
  - cbn. tauto.
  - unfold shared_tree, even. cbn [all_sub fold_right map snd]. repeat split; cbn [even_sum]; try (exists 1; repeat constructor; cbn [snd]; first [exact H1|exact H3|exact P1|exact P0]).
  - rewrite shared_conditional in A1. injection A1 as <- <-. specialize (A2 ones ones E1). 
    assert (M : meet shared_tree ones whole ones).
    { assert (Hi : forall x, in_evset (ones 0%nat) x = in_evset (whole 0%nat) x && in_evset (ones 0%nat) x).
      { intros x. cbn. destruct (Reqb_spec 0 x), (Reqb_spec 1 x); cbn; auto. }
      assert (Hn : NoDup [1%Z]) by (constructor; [intros []|constructor]).
      unfold meet, shared_tree. cbn [all_leaves fold_right map snd].
      assert (G : forall d, d = zero \/ d = one -> evset_wf d (ones (dvar d)) /\ (forall x, in_evset (ones (dvar d)) x = in_evset (whole (dvar d)) x && in_evset (ones (dvar d)) x)).
      { intros d [-> | ->]; (split; [exact Hn|exact Hi]). }
      pose proof (G zero (or_introl eq_refl)) as G0. pose proof (G one (or_intror eq_refl)) as G1. tauto. }
    specialize (A2 M). rewrite Hp in A2.
    assert (Hh : prob_of ones shared_tree = 1/2).
    { apply (answers_unique shared ones); [|exact shared_before]. apply answers_semR; auto; [apply V|now apply fin_ok|apply V]. }
    rewrite Hh in A2. pose proof (answers_unique _ _ _ _ A2 (shared_after_ones _ (or_intror eq_refl))). lra.
Qed.

(** ** The missing part of C08 *)

(** Two product units whose sum units 3 and 4 share the sum unit 5; unit 4 has no other child. *)
Definition yes : dist := DSym 1 [(1%Z, 1)].
Definition lw0 : option num := Some (Fin 0).
Definition starved : graph dist :=
  mkGraph [(0, USum); (1, UProd); (2, UProd); (3, USum); (4, USum); (5, USum); (6, ULeaf zero); (7, ULeaf zero); (8, ULeaf yes); (9, ULeaf yes); (10, ULeaf one)]%nat
    [mkEdge 0 1 h2; mkEdge 0 2 h2; mkEdge 1 3 None; mkEdge 1 8 None; mkEdge 2 4 None; mkEdge 2 9 None;
     mkEdge 3 5 h2; mkEdge 3 6 h2; mkEdge 4 5 lw0; mkEdge 5 7 h2; mkEdge 5 10 h2]%nat.

Definition starved_tree : pc dist :=
  let s := PSum [(w2, PLeaf zero); (w2, PLeaf one)] in
  PSum [(w2, PProd [PSum [(w2, s); (w2, PLeaf zero)]; PLeaf yes]); (w2, PProd [PSum [(Fin 0, s)]; PLeaf yes])].

Example starved_valid : valid_shared starved starved_tree /\ fin_sums starved_tree /\ event_ok starved_tree whole.
Proof.
  split; [|split; [cbn; repeat split; auto; repeat constructor|cbn; repeat split; repeat constructor; cbn; intuition discriminate]].
  constructor.
  - split; [concrete_wf|]. split; [intros e d H; repeat destruct H as [<-|H]; cbn; try discriminate; destruct H|].
    exists 0%nat. split; [reflexivity|]. split.
    + exists (fun u => match u with 0 => 0 | 1 | 2 => 1 | 3 | 4 | 8 | 9 => 2 | 5 | 6 => 3 | _ => 4 end)%nat. split; [reflexivity|].
      intros e H _. repeat destruct H as [<-|H]; cbn; try reflexivity. destruct H.
    + unfold starved_tree. unf.
  - exists (fun u => 20 - u)%nat. on_edges.
  - cbn. repeat split; try (repeat constructor); cbn; rewrite ?exp_ln, ?exp_0 by lra; lra.
  - cbn. repeat split; intuition.
  - cbn. repeat split; try tauto; repeat constructor; intuition lia.
  - destruct zero_one_ok as [Hz Ho]. assert (Hy : dist_ok yes) by (cbn; repeat split; try lra; repeat constructor; cbn; try lra; intuition discriminate).
    unfold starved_tree. cbn [all_leaves fold_right map snd]. tauto.
Qed.

Lemma one_step (lc : dist -> option (lres dist)) g (st : store num) nx u a : node_kind g u = Some USum -> out_edges g u = [mkEdge u a lw0] ->
  st a = Some (Fin 0) -> unit_conditional lc (g, st, nx) u = Some (g, upd st u (Fin 0), nx).
Proof.
  intros Hk Ho Ha. unfold unit_conditional. cbn [fst snd]. rewrite Hk. unfold eval_unit. rewrite Hk. unfold log_weighted_subcircuits. rewrite Ho.
  cbn -[logsumexp nadd]. rewrite Ha. unfold sum_log_forward. cbn [map fst snd].
  replace (logsumexp [nadd (Fin 0) (Fin 0)]) with (Fin 0); [reflexivity|].
  unfold logsumexp. cbn -[nlog]. rewrite ?Rplus_0_r, exp_0. unfold nlog. destruct (total_order_T 1 0) as [[?|?]|?]; try lra. now rewrite ln_1.
Qed.

Lemma prod_step (lc : dist -> option (lres dist)) g (st : store num) nx u a b : node_kind g u = Some UProd -> out_edges g u = [mkEdge u a None; mkEdge u b None] ->
  st a = Some (Fin 0) -> st b = Some (Fin 0) -> unit_conditional lc (g, st, nx) u = Some (g, upd st u (Fin 0), nx).
Proof.
  intros Hk Ho Ha Hb. unfold unit_conditional. cbn [fst snd]. rewrite Hk. unfold eval_unit. rewrite Hk, Ho. cbn. rewrite Ha, Hb. cbn. rewrite !Rplus_0_r. reflexivity.
Qed.

(** Merging unit 5 into unit 3 leaves unit 4 without children; normalising it takes the logsumexp of an empty array. *)
Lemma starved_conditional : conditional_on whole starved empty_store = None.
Proof.
  unfold conditional_on. set (lc := fun d => leaf_cond d (whole (dvar d))).
  assert (L1 : lc zero = Some (LOne zero (Fin 0))) by (apply sym_whole; auto). assert (L2 : lc one = Some (LOne one (Fin 0))) by (apply sym_whole; auto).
  assert (L3 : lc yes = Some (LOne yes (Fin 0))) by (apply sym_whole; auto).
  clearbody lc. unfold conditional_simple. change (bottom_up starved) with (Some [7;10;5;6;3;8;4;9;1;2;0]%nat). cbn [foldM].
  erewrite leaf_step; [|reflexivity|exact L1|reflexivity]. erewrite leaf_step; [|reflexivity|exact L2|reflexivity]. erewrite (sum_step _ _ _ _ 5%nat); [|reflexivity..].
  erewrite leaf_step; [|reflexivity|exact L1|reflexivity]. erewrite (sum_step _ _ _ _ 3%nat); [|reflexivity..].
  erewrite leaf_step; [|reflexivity|exact L3|reflexivity]. erewrite (one_step _ _ _ _ 4%nat); [|reflexivity..].
  erewrite leaf_step; [|reflexivity|exact L3|reflexivity]. do 2 (erewrite prod_step; [|reflexivity..]). erewrite sum_step; [|reflexivity..].
  set (st := upd _ _ _).
  assert (Hst : forall u, In u [7;10;5;6;3;8;4;9;1;2;0]%nat -> st u = Some (Fin 0)) by (intros u Hu; repeat destruct Hu as [<-|Hu]; reflexivity || destruct Hu).
  clearbody st. unfold conditional_finish. change (root starved) with (Some 0%nat). change (bottom_up starved) with (Some [7;10;5;6;3;8;4;9;1;2;0]%nat).
  assert (Hfi : filter (result_is_ninf st) [7;10;5;6;3;8;4;9;1;2;0]%nat = []).
  { cbn [filter]. unfold result_is_ninf. rewrite !Hst by (cbn; tauto). reflexivity. }
  cbv beta iota. rewrite Hfi. cbn [foldM]. cbn [has_node starved node_ids g_nodes map fst existsb Nat.eqb orb negb].
  assert (Hs : match remove_unreachable_nodes starved 0%nat with None => None | Some g3 => match simplify (fun _ => false) g3 with None => None | Some g4 => normalize g4 end end = None) by reflexivity.
  destruct (remove_unreachable_nodes starved 0%nat) as [g3|]; [|reflexivity]. destruct (simplify (fun _ => false) g3) as [g4|]; [|reflexivity]. now rewrite Hs.
Qed.

Theorem C08_shared_refuted : ~ C08_shared_full.
Proof.
  intros H. destruct starved_valid as [V [F E]]. destruct (H whole _ _ V F E) with (st := @empty_store num) as [res [lp [A _]]].
  - cbn. tauto.
  - rewrite starved_conditional in A. discriminate.
Qed.

(** A case meeting the hypotheses of the proved part: the number is right although the circuit is wrong. *)
Example C08_shared_case : conditional_on whole shared empty_store <> None /\
  forall res lp, conditional_on whole shared empty_store = Some (res, lp) -> nexp lp = Fin (prob_of whole shared_tree).
Proof.
  destruct shared_valid as [V [F [E _]]]. split; [rewrite shared_conditional; discriminate|]. intros res lp A.
  destruct (C08_shared_partial whole _ _ V F E (shared_no_points _)) as [_ B]. now apply (proj2 (B empty_store) res lp).
Qed.

Print Assumptions C08_shared_partial.
Print Assumptions C08_shared_refuted.
Print Assumptions C09_shared_refuted.
Print Assumptions C12_shared_refuted.
