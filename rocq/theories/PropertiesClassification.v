(** * Classification circuits (C56) *)
From Coq Require Import List Arith Bool Lia Sorted Reals Lra ZArith.
From Verif Require Import Num Graph Spec SpecFacts Circuit EvalFacts Interval Dist DistFacts MoveFacts NormalizeFacts BayesNet RegionCircuit
  JaxLayer JaxLayerFacts JaxSpec JaxMeaning Classification.
Import ListNotations.
Local Set Bullet Behavior "Strict Subproofs".
Local Open Scope nat_scope.

(** ** Specification *)

(** A distribution over another variable, and a circuit over positions in a list of names as a circuit over the names. *)
Definition over (f : nat -> nat) (d : dist) : dist :=
  match d with
  | DUnif v i => DUnif (f v) i
  | DDirac v l c => DDirac (f v) l c
  | DGauss v m s => DGauss (f v) m s
  | DTGauss v m s i => DTGauss (f v) m s i
  | DSym v p => DSym (f v) p
  | DInt v p => DInt (f v) p
  end.
Definition named (names : list nat) (t : pc dist) : pc dist := tmap (over (fun i => nth i names 0)) t.

(** All mass on state [c] of [n] states. *)
Definition certain (class n c : nat) : dist := DSym class (map (fun j => (Z.of_nat j, if c =? j then 1 else 0)%R) (seq 0 n)).

(** The positions of a circuit are positions in the list of its variables. *)
Definition positions_below (n : nat) (L : layer) : Prop := forall v i, In (LInput v i) (all_layers L) -> v < n.

(** The circuit over the sorted variables and the class variable: class [c] has its probability, and given the class the
    features are distributed as root node [c] says. *)
Definition joint (vars : list nat) (root : layer) (class : nat) (p : list R) : pc dist :=
  let n := number_of_nodes root in
  PSum (map (fun c => (nlog (Fin (nth c p 0 / Rsum p)%R), PProd [named vars (tree root c); PLeaf (certain class n c)])) (seq 0 n)).

Definition C56_full : Prop := forall vars root class p, StronglySorted lt vars -> positions_below (length vars) root ->
  length p = number_of_nodes root -> Forall (fun x => 0 < x)%R p ->
  exists new L, as_probabilistic_circuit vars root class (number_of_nodes root) (Some p) = Some (new, L) /\
  StronglySorted lt new /\ (forall x, In x new <-> x = class \/ In x vars) /\ named new (tree L 0) = joint vars root class p.

(** ** Renumbering *)
Lemma deepcopy_id L : forall L', deepcopy L = Some L' -> L' = L.
Proof.
  assert (G : forall cs cs', Forall (fun L => forall L', deepcopy L = Some L' -> L' = L) cs -> mapM deepcopy cs = Some cs' -> cs' = cs).
  { intros cs cs' H. revert cs'. induction H as [|c cs H1 H2 IH]; intros cs' E; cbn [mapM] in E; [now inversion E|]. destruct (deepcopy c) as [c'|] eqn:E1; [|discriminate]. destruct (mapM deepcopy cs) as [cs''|] eqn:E2; [|discriminate]. inversion E. f_equal; auto. }
  induction L as [v i|ws cs IH|ws cs IH|edges cs IH] using layer_ind'; intros L' E; cbn [deepcopy] in E.
  - destruct i; try discriminate; now inversion E.
  - destruct (mapM deepcopy cs) as [cs'|] eqn:E1; [|discriminate]. inversion E. f_equal. now apply G.
  - destruct (mapM deepcopy cs) as [cs'|] eqn:E1; [|discriminate]. inversion E. f_equal. now apply G.
  - destruct (mapM deepcopy cs) as [cs'|] eqn:E1; [|discriminate]. inversion E. f_equal. now apply G.
Qed.

(** Input layers that can be copied. *)
Definition copyable (L : layer) : Prop := match L with LInput _ (IDiscrete _) | LInput _ (IDirac _ _) => False | _ => True end.

Lemma deepcopy_some L : Forall copyable (all_layers L) <-> deepcopy L = Some L.
Proof.
  assert (G : forall cs, Forall (fun L => Forall copyable (all_layers L) <-> deepcopy L = Some L) cs -> Forall copyable (concat (map all_layers cs)) <-> mapM deepcopy cs = Some cs).
  { intros cs H. induction H as [|c cs H1 H2 IH]; cbn [map concat mapM]; [split; auto|]. rewrite Forall_app, H1, IH. split.
    - intros [-> ->]. reflexivity.
    - destruct (deepcopy c) as [c'|] eqn:E1; [|discriminate]. destruct (mapM deepcopy cs) as [cs'|] eqn:E2; [|discriminate]. intros E. inversion E; subst. auto. }
  assert (G' : forall L cs, all_layers L = L :: concat (map all_layers cs) -> copyable L -> Forall copyable (all_layers L) <-> Forall copyable (concat (map all_layers cs))).
  { intros L0 cs E1 E2. rewrite E1. split; intros H; [now inversion H|now constructor]. }
  induction L as [v i|ws cs IH|ws cs IH|edges cs IH] using layer_ind'.
  - destruct i; cbn; split; intros H; auto; try discriminate; try (inversion H; contradiction); repeat constructor.
  - rewrite (G' _ cs) by (reflexivity || exact I). rewrite (G cs IH). cbn [deepcopy]. destruct (mapM deepcopy cs) as [cs'|]; split; intros E; inversion E; subst; auto.
  - rewrite (G' _ cs) by (reflexivity || exact I). rewrite (G cs IH). cbn [deepcopy]. destruct (mapM deepcopy cs) as [cs'|]; split; intros E; inversion E; subst; auto.
  - rewrite (G' _ cs) by (reflexivity || exact I). rewrite (G cs IH). cbn [deepcopy]. destruct (mapM deepcopy cs) as [cs'|]; split; intros E; inversion E; subst; auto.
Qed.

Definition shift (k v : nat) : nat := if k <=? v then v + 1 else v.

Lemma weighted_rel2 {A B} (F : A -> B) parts (va vb : list (nat -> A)) (G : A -> B) : Forall2 (fun f g => forall r, F (f r) = G (g r)) va vb ->
  map (fun wt => (fst wt, F (snd wt))) (weighted parts va) = map (fun wt => (fst wt, G (snd wt))) (weighted parts vb).
Proof.
  unfold weighted. intros H. revert parts. induction H as [|f g va vb H1 H2 IH]; intros [|p parts]; cbn [combine map concat]; auto. rewrite !map_app, IH. f_equal. cbn [fst snd]. rewrite !map_map. apply map_ext. intros e. cbn. now rewrite H1.
Qed.

Lemma sum_tree_rel (F G : dist -> dist) parts va vb : Forall2 (fun f g => forall r, tmap F (f r) = tmap G (g r)) va vb -> tmap F (sum_tree parts va) = tmap G (sum_tree parts vb).
Proof.
  intros H. unfold sum_tree. cbn [tmap]. f_equal. rewrite !map_map. cbn [fst snd]. pose proof (weighted_rel2 (tmap F) parts _ _ (tmap G) H) as E.
  apply (f_equal (map (fun wt => (nlog (Fin (wexp (fst wt) / total_weight parts)), snd wt)))) in E. rewrite !map_map in E. exact E.
Qed.

Lemma tree_update k f g L : (forall v i, In (LInput v i) (all_layers L) -> f (shift k v) = g v) ->
  forall r, tmap (over f) (tree (update_variables k L) r) = tmap (over g) (tree L r).
Proof.
  induction L as [v i|ws cs IH|ws cs IH|edges cs IH] using layer_ind'; intros H r.
  - specialize (H v i (or_introl eq_refl)). unfold shift in H. cbn [update_variables tree tmap]. f_equal. destruct i; cbn; now rewrite H.
  - cbn [update_variables tree].
    assert (HF : Forall2 (fun a b : nat -> pc dist => forall r, tmap (over f) (a r) = tmap (over g) (b r)) (map (fun c r' => tree c r') (map (update_variables k) cs)) (map (fun c r' => tree c r') cs)).
    { clear r. assert (H' : forall c v i, In c cs -> In (LInput v i) (all_layers c) -> f (shift k v) = g v) by (intros c v i Hc Hi; apply (H v i); right; apply in_concat; exists (all_layers c); split; [now apply in_map|exact Hi]).
      clear H. induction IH as [|c cs H1 H2 IHc]; cbn [map]; constructor; [apply H1; intros v i Hi; apply (H' c v i); [now left|exact Hi]|apply IHc; intros c' v i Hc; apply (H' c'); now right]. }
    now apply sum_tree_rel.
  - cbn [update_variables tree].
    assert (HF : Forall2 (fun a b : nat -> pc dist => forall r, tmap (over f) (a r) = tmap (over g) (b r)) (map (fun c r' => tree c r') (map (update_variables k) cs)) (map (fun c r' => tree c r') cs)).
    { clear r. assert (H' : forall c v i, In c cs -> In (LInput v i) (all_layers c) -> f (shift k v) = g v) by (intros c v i Hc Hi; apply (H v i); right; apply in_concat; exists (all_layers c); split; [now apply in_map|exact Hi]).
      clear H. induction IH as [|c cs H1 H2 IHc]; cbn [map]; constructor; [apply H1; intros v i Hi; apply (H' c v i); [now left|exact Hi]|apply IHc; intros c' v i Hc; apply (H' c'); now right]. }
    now apply sum_tree_rel.
  - cbn [update_variables tree prod_tree tmap]. unfold prod_tree. cbn [tmap]. f_equal. rewrite !map_length. generalize 0 as s.
    assert (H' : forall c v i, In c cs -> In (LInput v i) (all_layers c) -> f (shift k v) = g v) by (intros c v i Hc Hi; apply (H v i); right; apply in_concat; exists (all_layers c); split; [now apply in_map|exact Hi]).
    clear H. induction IH as [|c cs H1 H2 IHc]; intros s; [reflexivity|]. cbn [length seq map combine concat]. rewrite !map_app. f_equal.
    + cbn [fst snd]. rewrite !map_map. apply map_ext. intros j. apply H1. intros v i Hi. apply (H' c v i); [now left|exact Hi].
    + apply IHc. intros c' v i Hc. apply (H' c'). now right.
Qed.

Lemma update_nodes k L : number_of_nodes (update_variables k L) = number_of_nodes L.
Proof. now destruct L. Qed.

(** The position of a variable in the sorted union. *)
Lemma insert_split c : forall vars, StronglySorted lt vars -> ~ In c vars -> exists a b, vars = a ++ b /\ sset_insert c vars = a ++ c :: b /\ ~ In c a.
Proof.
  induction vars as [|v vars IH]; intros Hs Hn; cbn [sset_insert].
  - exists [], []. cbn. auto.
  - inversion Hs as [|? ? Hs1 Hs2]; subst. destruct (Nat.compare c v) eqn:E.
    + exfalso. apply Nat.compare_eq_iff in E. subst. apply Hn. now left.
    + exists [], (v :: vars). cbn. auto.
    + destruct (IH Hs1) as (a & b & -> & E2 & Ha); [intros X; apply Hn; now right|]. exists (v :: a), b. cbn. rewrite E2. split; [reflexivity|]. split; [reflexivity|]. intros [->|X]; [apply Hn; now left|auto].
Qed.

Lemma var_index_split c a : forall b, ~ In c a -> var_index (a ++ c :: b) c = Some (length a).
Proof. induction a as [|v a IH]; intros b H; cbn [app var_index]; [now rewrite Nat.eqb_refl|]. destruct (Nat.eqb_spec v c) as [->|X]; [exfalso; apply H; now left|]. rewrite IH; [reflexivity|]. intros Y. apply H. now right. Qed.

(** ** The edges of the new layers *)
Lemma combine_pairs {A B} (f : nat -> A) (g : nat -> B) l : combine (map f l) (map g l) = map (fun j => (f j, g j)) l.
Proof. induction l; cbn; congruence. Qed.

Lemma full_one {A} n (data : list A) : length data = n -> full 1 n data = Some (mkSparse 1 n (combine (map (fun c => (0, c)) (seq 0 n)) data)).
Proof. intros H. unfold full. cbn [seq map concat]. rewrite app_nil_r, map_length, seq_length, H, Nat.eqb_refl. reflexivity. Qed.

Lemma full_two n : full 2 n (seq 0 n ++ seq 0 n) = Some (mkSparse 2 n (map (fun c => (0, c, c)) (seq 0 n) ++ map (fun c => (1, c, c)) (seq 0 n))).
Proof.
  unfold full. cbn [seq map concat]. rewrite app_nil_r, !app_length, !map_length, !seq_length, Nat.eqb_refl. f_equal. f_equal.
  assert (G : forall (a b : list (nat * nat)) (x y : list nat), length a = length x -> combine (a ++ b) (x ++ y) = combine a x ++ combine b y).
  { induction a as [|u a IH]; intros b [|v x] y Hl; try discriminate Hl; [reflexivity|]. cbn. f_equal. apply IH. cbn in Hl. congruence. }
  rewrite G by (now rewrite map_length). f_equal.
  - rewrite <- (map_id (seq 0 n)) at 2. apply (combine_pairs (fun c => (0, c)) (fun c => c)).
  - rewrite <- (map_id (seq 0 n)) at 2. apply (combine_pairs (fun c => (1, c)) (fun c => c)).
Qed.

Lemma filter_one c n : c < n -> forall (k : nat), filter (fun e : nat * nat * nat => (fst (fst e) =? k) && (snd (fst e) =? c)) (map (fun j => (k, j, j)) (seq 0 n)) = [(k, c, c)].
Proof.
  intros H k. assert (G : forall s, s <= c < s + n -> filter (fun e : nat * nat * nat => (fst (fst e) =? k) && (snd (fst e) =? c)) (map (fun j => (k, j, j)) (seq s n)) = [(k, c, c)]); [|apply G; lia].
  clear H. induction n as [|n IH]; intros s H; [lia|]. cbn [seq map filter fst snd]. rewrite Nat.eqb_refl. cbn [andb]. destruct (Nat.eqb_spec s c) as [->|X].
  - f_equal. assert (G : forall s m, c < s -> filter (fun e : nat * nat * nat => (fst (fst e) =? k) && (snd (fst e) =? c)) (map (fun j => (k, j, j)) (seq s m)) = []).
    { clear. intros s m. revert s. induction m as [|m IH]; intros s Hs; [reflexivity|]. cbn [seq map filter fst snd]. destruct (Nat.eqb_spec s c); [lia|]. rewrite andb_false_r. apply IH. lia. }
    apply G. lia.
  - apply IH. lia.
Qed.

Lemma filter_other c n k k' : k <> k' -> filter (fun e : nat * nat * nat => (fst (fst e) =? k) && (snd (fst e) =? c)) (map (fun j => (k', j, j)) (seq 0 n)) = [].
Proof. intros H. induction (seq 0 n) as [|j l IH]; [reflexivity|]. cbn [map filter fst snd]. destruct (Nat.eqb_spec k' k); [congruence|]. exact IH. Qed.

Lemma wexp_nlog p : (0 <= p)%R -> wexp (nlog (Fin p)) = p.
Proof. intros H. cbn. destruct (total_order_T p 0) as [[X|X]|X]; cbn; try lra. now apply exp_ln. Qed.

Lemma indicator_sum c n : forall s, s <= c < s + n -> Rsum (map (fun j => if c =? j then 1 else 0)%R (seq s n)) = 1%R.
Proof.
  induction n as [|n IH]; intros s H; [lia|]. cbn [seq map Rsum fold_right]. unfold Rsum in *. cbn [fold_right]. destruct (Nat.eqb_spec c s) as [->|X].
  - assert (G : forall m t, s < t -> fold_right Rplus 0%R (map (fun j => if s =? j then 1 else 0)%R (seq t m)) = 0%R).
    { clear. induction m as [|m IH]; intros t Ht; [reflexivity|]. cbn [seq map fold_right]. destruct (Nat.eqb_spec s t); [lia|]. rewrite IH by lia. ring. }
    rewrite G by lia. ring.
  - rewrite IH by lia. ring.
Qed.

Lemma certain_leaf class n c : c < n -> input_dist class (IDiscrete (log_eye n)) c = certain class n c.
Proof.
  intros H. cbn [input_dist]. unfold certain. f_equal. unfold log_eye.
  rewrite (nth_indep _ [] ((fun i => map (fun j => nlog (Fin (if i =? j then 1 else 0)%R)) (seq 0 n)) 0)) by (rewrite map_length, seq_length; exact H).
  rewrite (map_nth (fun i => map (fun j => nlog (Fin (if i =? j then 1 else 0)%R)) (seq 0 n))), seq_nth by exact H. cbn [Nat.add]. rewrite map_length, seq_length. unfold softmax. rewrite !map_map. rewrite combine_pairs. apply map_ext. intros j. f_equal.
  rewrite (map_ext (fun x => wexp (nlog (Fin (if c =? x then 1 else 0)%R))) (fun x => if c =? x then 1 else 0)%R) by (intros x; apply wexp_nlog; destruct (c =? x); lra).
  rewrite indicator_sum by lia. rewrite wexp_nlog by (destruct (c =? j); lra). unfold Rdiv. rewrite Rinv_1. ring.
Qed.

(** ** The joint circuit *)
Lemma nth_seq_map {A} (l : list A) d : l = map (fun c => nth c l d) (seq 0 (length l)).
Proof. induction l as [|x l IH]; [reflexivity|]. cbn [length seq map nth]. f_equal. rewrite <- seq_shift, map_map. exact IH. Qed.

Lemma as_pc_tree vars root class p k : length p = number_of_nodes root -> Forall (fun x => 0 <= x)%R p ->
  forall edges rw, full 2 (number_of_nodes root) (seq 0 (number_of_nodes root) ++ seq 0 (number_of_nodes root)) = Some edges -> full 1 (number_of_nodes root) (map (fun p => nlog (Fin p)) p) = Some rw ->
  forall new, nth k new 0 = class -> (forall v i, In (LInput v i) (all_layers root) -> nth (shift k v) new 0 = nth v vars 0) ->
  named new (tree (LSparse [rw] [LProd edges [update_variables k root; LInput k (IDiscrete (log_eye (number_of_nodes root)))]]) 0) = joint vars root class p.
Proof.
  intros Hl Hp edges rw E1 E2 new Hk Hv. set (n := number_of_nodes root) in *. rewrite full_two in E1. rewrite full_one in E2 by (now rewrite map_length). apply (f_equal (fun o => match o with Some x => x | None => edges end)) in E1. apply (f_equal (fun o => match o with Some x => x | None => rw end)) in E2. cbv beta iota in E1, E2. subst edges rw.
  unfold joint. fold n. cbn [tree map]. unfold named, sum_tree. cbn [tmap]. f_equal.
  assert (Es : sparse_edges 0 (mkSparse 1 n (combine (map (fun c => (0, c)) (seq 0 n)) (map (fun p => nlog (Fin p)) p))) = map (fun c => (c, nlog (Fin (nth c p 0%R)))) (seq 0 n)).
  { unfold sparse_edges. cbn [s_entries]. assert (Ep : p = map (fun c => nth c p 0%R) (seq 0 n)) by (rewrite <- Hl; apply nth_seq_map). rewrite Ep at 1. rewrite map_map, combine_pairs. clear. induction (seq 0 n) as [|j l IH]; [reflexivity|]. cbn [map filter fst snd Nat.eqb]. f_equal. exact IH. }
  unfold weighted, total_weight. cbn [map combine concat]. rewrite Es, !app_nil_r. cbn [fst snd]. rewrite !map_map. cbn [fst snd].
  assert (Et : Rsum (map (fun x => wexp (nlog (Fin (nth x p 0%R)))) (seq 0 n)) = Rsum p).
  { transitivity (Rsum (map (fun c => nth c p 0%R) (seq 0 n))); [|rewrite <- Hl; f_equal; symmetry; apply nth_seq_map]. f_equal. apply map_ext_in. intros c Hc. apply in_seq in Hc. apply wexp_nlog. rewrite Forall_forall in Hp. apply Hp. apply nth_In. lia. }
  rewrite Et. apply map_ext_in. intros c Hc. apply in_seq in Hc. f_equal.
  - f_equal. f_equal. rewrite wexp_nlog; [reflexivity|]. rewrite Forall_forall in Hp. apply Hp. apply nth_In. lia.
  - unfold prod_tree. cbn [length seq combine map concat fst snd tmap]. f_equal. rewrite !map_app. unfold prod_edges. cbn [s_entries]. rewrite !filter_app, (filter_one c n) by lia. rewrite (filter_one c n) by lia. rewrite (filter_other c n 0 1), (filter_other c n 1 0) by lia. cbn [app map snd]. f_equal.
    + apply tree_update. exact Hv.
    + f_equal. rewrite (certain_leaf k n c) by lia. unfold certain. cbn [tmap over]. now rewrite Hk.
Qed.

(** Without the guards: the class variable is new and the root has no discrete and no Dirac layers (they cannot be copied). *)
Theorem C56_circuit_partial vars root class p : StronglySorted lt vars -> ~ In class vars -> positions_below (length vars) root -> Forall copyable (all_layers root) ->
  match p with Some p => length p = number_of_nodes root /\ Forall (fun x => 0 <= x)%R p | None => True end ->
  exists new L, as_probabilistic_circuit vars root class (number_of_nodes root) p = Some (new, L) /\
  StronglySorted lt new /\ (forall x, In x new <-> x = class \/ In x vars) /\
  named new (tree L 0) = joint vars root class (match p with Some p => p | None => repeat (1 / INR (number_of_nodes root))%R (number_of_nodes root) end).
Proof.
  intros Hs Hn Hb Hc Hp. unfold as_probabilistic_circuit. rewrite Nat.eqb_refl. unfold sset_union. cbn [fold_right]. set (n := number_of_nodes root) in *.
  destruct (insert_split class vars Hs Hn) as (a & b & E1 & E2 & Ha). rewrite E2, (var_index_split class a b Ha). rewrite (proj1 (deepcopy_some root) Hc).
  set (pr := match p with Some p => p | None => repeat (1 / INR n)%R n end).
  assert (Hpr : length pr = n /\ Forall (fun x => 0 <= x)%R pr).
  { unfold pr. destruct p as [p|]; [exact Hp|]. split; [apply repeat_length|]. apply Forall_forall. intros x Hx. destruct n as [|m]; [destruct Hx|]. apply repeat_spec in Hx. subst x. apply Rlt_le, Rdiv_lt_0_compat; [lra|]. apply lt_0_INR. lia. }
  destruct Hpr as [Hl Hnn]. rewrite full_two, full_one by (now rewrite map_length). eexists _, _. split; [reflexivity|]. rewrite <- E2. split; [now apply sset_insert_sorted|]. split; [intros x; apply sset_insert_In|].
  rewrite E2. apply as_pc_tree; auto using full_two; [apply full_one; now rewrite map_length| |].
  - rewrite app_nth2, Nat.sub_diag by lia. reflexivity.
  - intros v i Hv. apply Hb in Hv. rewrite E1. unfold shift. destruct (Nat.leb_spec (length a) v) as [X|X].
    + rewrite !app_nth2 by lia. replace (v + 1 - length a) with (S (v - length a)) by lia. reflexivity.
    + rewrite !app_nth1 by lia. reflexivity.
Qed.

(** A circuit with a discrete input layer cannot be copied. *)
Theorem C56_refuted : ~ C56_full.
Proof.
  intros H. destruct (H [0] (LInput 0 (IDiscrete [[Fin 0]])) 1 [1%R]) as (new & L & E & _).
  - repeat constructor.
  - intros v i [X|[]]. inversion X. cbn. lia.
  - reflexivity.
  - repeat constructor. lra.
  - cbn in E. discriminate E.
Qed.

(** If the class variable is one of the circuit's own variables, the circuit is written over the wrong variables: the features of
    variable 5 end up one past the last variable. *)
Example C56_own_variable :
  let root := LInput 0 (IUniform [(0, 1)]%R) in
  exists L, as_probabilistic_circuit [5] root 5 1 None = Some ([5], L) /\ In (LInput 1 (IUniform [(0, 1)]%R)) (all_layers L).
Proof. cbn. eexists. split; [reflexivity|]. cbn. auto. Qed.

(** Two classes, features 1 and 3, class variable 2: the second feature moves up by one position. *)
Example C56_case :
  let root := LProd (mkSparse 2 2 [(0, 0, 0); (0, 1, 1); (1, 0, 0); (1, 1, 0)]) [LInput 0 (IGauss [0; 1]%R [0; 0]%R [0; 0]%R); LInput 1 (IUniform [(0, 1)]%R)] in
  exists L, as_probabilistic_circuit [1; 3] root 2 2 (Some [1 / 4; 3 / 4]%R) = Some ([1; 2; 3], L) /\ variables L = [0; 1; 2] /\
  named [1; 2; 3] (tree L 0) = joint [1; 3] root 2 [1 / 4; 3 / 4]%R /\
  joint [1; 3] root 2 [1 / 4; 3 / 4]%R =
    PSum [(nlog (Fin (1 / 4 / (1 / 4 + (3 / 4 + 0)))%R), PProd [PProd [PLeaf (DGauss 1 0 (exp 0 + 0)); PLeaf (DUnif 3 (iopen 0 1))]; PLeaf (DSym 2 [(0%Z, 1%R); (1%Z, 0%R)])]);
          (nlog (Fin (3 / 4 / (1 / 4 + (3 / 4 + 0)))%R), PProd [PProd [PLeaf (DGauss 1 1 (exp 0 + 0)); PLeaf (DUnif 3 (iopen 0 1))]; PLeaf (DSym 2 [(0%Z, 0%R); (1%Z, 1%R)])])].
Proof.
  intros root. destruct (C56_circuit_partial [1; 3] root 2 (Some [1 / 4; 3 / 4]%R)) as (new & L & E & _ & _ & H).
  - repeat constructor.
  - cbn. lia.
  - intros v i [X|[X|[X|[]]]]; inversion X; cbn; lia.
  - repeat constructor.
  - split; [reflexivity|]. repeat constructor; lra.
  - pose proof E as E'. cbn -[log_eye nlog] in E'. inversion E'; subst new. exists L. split; [exact E|]. split; [inversion E'; reflexivity|]. split; [exact H|reflexivity].
Qed.

(** ** The loss *)

(** The average negative log probability of each sample's own label. *)
Definition cross_entropy (L : layer) (x : list (list R)) (y : list nat) : option num :=
  match mapM (fun xy => match ll L (fst xy) with Some lls => nth_error lls (snd xy) | None => None end) (combine x y) with
  | Some own => Some (nopp (ndiv (nsum own) (Fin (INR (length own)))))
  | None => None
  end.
Definition C56_loss_full : Prop := forall L x y, length x = length y -> x <> [] -> Forall (fun k => k < number_of_nodes L) y ->
  (exists lls, mapM (ll L) x = Some lls /\ Forall (fun l => length l = number_of_nodes L /\ Forall nfin l) lls) ->
  loss L x y = cross_entropy L x y.

(** One sample of class 0, which has density 1 there; class 1 has density 1/2: the loss is ln 2 / 2 instead of 0. *)
Lemma two_classes : ll (LInput 0 (IUniform [(0, 1); (0, 2)]%R)) [1 / 2]%R = Some [Fin 0; Fin (- ln 2)].
Proof.
  cbn -[nlog]. unfold input_ll, Rltb. cbn -[nlog].
  repeat match goal with |- context [Rlt_dec ?a ?b] => destruct (Rlt_dec a b); [|lra] end. cbn -[nlog]. rewrite !nlog_Fin_pos by lra. cbn. replace (1 - 0)%R with 1%R by ring. replace (2 - 0)%R with 2%R by ring. rewrite ln_1, Ropp_0. reflexivity.
Qed.

Theorem C56_loss_refuted : ~ C56_loss_full.
Proof.
  intros H. specialize (H (LInput 0 (IUniform [(0, 1); (0, 2)]%R)) [[1 / 2]%R] [0] eq_refl ltac:(discriminate) ltac:(repeat constructor)).
  unfold loss, cross_entropy in H. cbn [mapM combine fst snd] in H. rewrite two_classes in H. cbn -[INR] in H.
  assert (HH : exists lls, Some [[Fin 0; Fin (- ln 2)]] = Some lls /\ Forall (fun l => length l = 2 /\ Forall nfin l) lls) by (eexists; split; [reflexivity|]; repeat constructor).
  specialize (H HH). unfold mean, ndiv in H. cbn in H. destruct (Req_EM_T (1 + 1) 0) as [X|_]; [lra|]. destruct (Req_EM_T 1 0) as [X|_]; [lra|].
  inversion H as [E]. pose proof ln_lt_2. lra.
Qed.

(** With one class, and samples of one and the same likelihood, the loss is the cross entropy.  What is missing: everything else, see above. *)
Theorem C56_loss_partial L x y v : length x = length y -> x <> [] -> Forall (fun k => k = 0) y -> Forall (fun a => ll L a = Some [Fin v]) x ->
  loss L x y = cross_entropy L x y /\ loss L x y = Some (Fin (- v)).
Proof.
  intros Hl Hx Hy Hv. set (n := length x).
  assert (E1 : mapM (ll L) x = Some (repeat [Fin v] n)).
  { unfold n. clear -Hv. induction Hv as [|a x Ha _ IH]; [reflexivity|]. cbn [mapM length repeat]. now rewrite Ha, IH. }
  assert (E2 : mapM (gather (repeat [Fin v] n)) y = Some (repeat [Fin v] n)).
  { unfold n. rewrite Hl. assert (Hn : 0 < length y) by (rewrite <- Hl; destruct x; [congruence|cbn; lia]). revert Hn. generalize (length y) at 1 2 as m. intros m Hm.
    clear -Hy Hm. induction Hy as [|k y -> _ IH]; [reflexivity|]. cbn [mapM length repeat]. rewrite IH. unfold gather. destruct m; [lia|]. reflexivity. }
  assert (E3 : mapM (fun xy => match ll L (fst xy) with Some lls => nth_error lls (snd xy) | None => None end) (combine x y) = Some (repeat (Fin v) n)).
  { unfold n. clear -Hl Hy Hv. revert y Hl Hy. induction Hv as [|a x Ha _ IH]; intros [|k y] Hl Hy; try discriminate; [reflexivity|]. inversion Hy as [|? ? H1 H2]; subst. cbn [combine mapM length repeat fst snd]. rewrite Ha. cbn [nth_error]. rewrite IH; auto. }
  assert (E4 : concat (repeat [Fin v] n) = repeat (Fin v) n) by (clear; induction n; cbn; congruence).
  assert (E5 : nsum (repeat (Fin v) n) = Fin (INR n * v)).
  { clear. induction n as [|n IH]; [cbn; f_equal; lra|]. rewrite S_INR. cbn [repeat]. change (nsum (Fin v :: repeat (Fin v) n)) with (nadd (Fin v) (nsum (repeat (Fin v) n))). rewrite IH. cbn. f_equal. lra. }
  assert (Hn : INR n <> 0%R) by (apply not_0_INR; unfold n; destruct x; [congruence|cbn; lia]).
  unfold loss, cross_entropy, mean. rewrite E1, E2, E3, E4, repeat_length, E5. split; [reflexivity|]. unfold ndiv. destruct (Req_EM_T (INR n) 0) as [X|_]; [tauto|]. cbn. do 2 f_equal. field. exact Hn.
Qed.

(** With labels below the number of classes only the first samples matter: two batches that agree in as many samples as there are
    classes have the same loss, whatever the other samples are. *)
Theorem C56_loss_ignores_samples L x x' y : number_of_nodes L <= length x -> number_of_nodes L <= length x' -> firstn (number_of_nodes L) x = firstn (number_of_nodes L) x' ->
  Forall (fun k => k < number_of_nodes L) y -> (exists m, mapM (ll L) x = Some m) -> (exists m, mapM (ll L) x' = Some m) -> loss L x y = loss L x' y.
Proof.
  set (n := number_of_nodes L). intros H1 H2 E Hy (m & Em) (m' & Em'). unfold loss. rewrite Em, Em'.
  assert (G : forall (l : list (list R)) r, mapM (ll L) l = Some r -> length r = length l /\ mapM (ll L) (firstn n l) = Some (firstn n r)).
  { generalize n as k. clear. intros k l. revert k. induction l as [|a l IH]; intros k r Er; cbn [mapM] in Er; [inversion Er; destruct k; split; reflexivity|]. destruct (ll L a) as [b|] eqn:Eb; [|discriminate]. destruct (mapM (ll L) l) as [r'|] eqn:Er'; [|discriminate]. inversion Er; subst. destruct (IH (k - 1) r' eq_refl) as [L1 L2]. split; [cbn; now rewrite L1|]. destruct k as [|k]; [reflexivity|]. cbn [firstn mapM]. rewrite Eb. replace (S k - 1) with k in L2 by lia. now rewrite L2. }
  destruct (G x m Em) as [L1 F1]. destruct (G x' m' Em') as [L2 F2]. rewrite E, F2 in F1. inversion F1 as [F].
  assert (Eg : mapM (gather m) y = mapM (gather m') y).
  { clear -Hy F L1 L2 H1 H2. induction Hy as [|k y Hk Hy IH]; [reflexivity|]. cbn [mapM]. rewrite IH. replace (gather m k) with (gather m' k); [reflexivity|].
    unfold gather. rewrite !Nat.min_l by lia. transitivity (nth_error (firstn n m') k); [symmetry|rewrite F]; clear -Hk; [revert m'|revert m]; revert k Hk; generalize n as j; induction j as [|j IH]; intros [|k] Hk [|a l]; cbn; try lia; auto; apply IH; lia. }
  now rewrite Eg.
Qed.

(** Generative training of a circuit with one root node does use the average negative log-likelihood. *)
Theorem C56_generative_loss L x lls : mapM (ll L) x = Some lls -> Forall (fun l => length l = 1) lls ->
  generative_loss L x = Some (nopp (ndiv (nsum (map (fun l => nth 0 l NaN) lls)) (Fin (INR (length x))))).
Proof.
  intros E H. unfold generative_loss, mean. rewrite E.
  assert (Ec : concat lls = map (fun l => nth 0 l NaN) lls) by (clear E; induction H as [|l lls H1 H2 IH]; [reflexivity|]; destruct l as [|a [|b l]]; try discriminate H1; cbn; now rewrite IH).
  rewrite Ec, map_length. replace (length lls) with (length x); [reflexivity|]. clear -E. revert lls E. induction x as [|a x IH]; intros lls E; cbn [mapM] in E; [now inversion E|]. destruct (ll L a); [|discriminate]. destruct (mapM (ll L) x); [|discriminate]. inversion E. cbn. f_equal. now apply IH.
Qed.

(** Three samples, two classes: the third sample may be anything that has a likelihood. *)
Lemma two_classes_far : ll (LInput 0 (IUniform [(0, 1); (0, 2)]%R)) [3%R] = Some [NInf; NInf].
Proof.
  cbn -[nlog]. unfold input_ll, Rltb. cbn -[nlog].
  repeat match goal with |- context [Rlt_dec ?a ?b] => (destruct (Rlt_dec a b); [|lra]) || (destruct (Rlt_dec a b); [lra|]) end. reflexivity.
Qed.
Example C56_loss_case : let L := LInput 0 (IUniform [(0, 1); (0, 2)]%R) in
  loss L [[1 / 2]; [1 / 2]; [3]]%R [0; 1; 1] = loss L [[1 / 2]; [1 / 2]; [1 / 2]]%R [0; 1; 1] /\ generative_loss (LInput 0 (IUniform [(0, 1)]%R)) [] = Some (nopp (ndiv (Fin 0) (Fin 0))).
Proof.
  intros L. split; [|reflexivity]. apply C56_loss_ignores_samples; cbn [number_of_nodes input_nodes length]; auto; [repeat constructor| |]; cbn [mapM]; unfold L; rewrite two_classes, ?two_classes_far; eauto.
Qed.

Print Assumptions C56_circuit_partial.
Print Assumptions C56_refuted.
Print Assumptions C56_loss_refuted.
Print Assumptions C56_loss_ignores_samples.
Print Assumptions C56_generative_loss.
Print Assumptions C56_loss_partial.
