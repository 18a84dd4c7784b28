(** * NormalizeFacts: SumUnit.normalize and ProbabilisticCircuit.normalize *)
From Coq Require Import List Arith Bool Lia Reals Lra.
From Verif Require Import Num Graph GraphFacts Spec SpecFacts Circuit EvalFacts Simplify SimplifyFacts.
Import ListNotations.
Local Open Scope R_scope.

Lemma logsumexp_weights ws : Forall lw_ok ws -> 0 < Rsum (map wexp ws) -> exists z, logsumexp ws = Fin z /\ exp z = Rsum (map wexp ws).
Proof.
  intros Hok Hp. assert (E : nexp (logsumexp ws) = Fin (Rsum (map wexp ws))).
  { rewrite nexp_logsumexp. clear Hp. induction Hok as [|w ws Hw Hok IH]; [reflexivity|].
    cbn [map nsum Rsum fold_right] in *. fold (nsum (map nexp ws)). fold (Rsum (map wexp ws)). rewrite IH. destruct w; cbn in Hw |- *; tauto || reflexivity. }
  destruct (logsumexp ws) as [| |z|]; cbn in E; try discriminate.
  - injection E as E. lra.
  - injection E as E. eauto.
Qed.

Lemma wexp_shift w z : lw_ok w -> lw_ok (nsub w (Fin z)) /\ wexp (nsub w (Fin z)) = wexp w / exp z.
Proof.
  destruct w; cbn; try tauto; intros _; split; auto.
  - unfold Rdiv. ring.
  - unfold Rminus. now rewrite exp_plus, exp_Ropp.
Qed.

Section Norm.
Context {D : Type}.
Implicit Types g : graph D.

(** The log weights of the edges of a unit, [None] if one has none. *)
Definition weights_of g (u : id) : option (list num) := mapM (fun e => e_lw e) (out_edges g u).

Lemma lws_weights g u : match log_weighted_subcircuits g u with Some l => weights_of g u = Some (map fst l) | None => weights_of g u = None end.
Proof.
  unfold log_weighted_subcircuits, weights_of. induction (out_edges g u) as [|e l IH]; simpl; auto.
  destruct (e_lw e); auto. destruct (mapM _ l); simpl; rewrite IH; auto.
Qed.

Lemma set_weights_ids u f g : node_ids (set_weights u f g) = node_ids g.
Proof. reflexivity. Qed.

Lemma set_weights_kind u f g v : node_kind (set_weights u f g) v = node_kind g v.
Proof. reflexivity. Qed.

Lemma set_weights_out u f g v : out_edges (set_weights u f g) v =
  if (v =? u)%nat then map (fun e => mkEdge (e_src e) (e_dst e) (option_map f (e_lw e))) (out_edges g v) else out_edges g v.
Proof.
  unfold out_edges, set_weights. simpl. induction (g_edges g) as [|e l IH]; simpl; [now destruct (v =? u)%nat|].
  destruct (e_src e =? u)%nat eqn:E1; simpl; destruct (e_src e =? v)%nat eqn:E2; simpl; rewrite IH; destruct (v =? u)%nat eqn:E3; auto;
    exfalso; rewrite ?Nat.eqb_eq, ?Nat.eqb_neq in *; lia.
Qed.

(** What normalising does to the edges [l] of one unit. *)
Definition rescaled (l l' : list edge) : Prop := exists c, 0 < c /\
  Forall2 (fun e e' => e_src e' = e_src e /\ e_dst e' = e_dst e /\
    exists w w', e_lw e = Some w /\ e_lw e' = Some w' /\ lw_ok w' /\ wexp w' = wexp w / c) l l' /\
  Rsum (map (fun e => match e_lw e with Some w => wexp w | None => 0 end) l') = 1.

Definition positive_total g (u : id) : Prop := exists ws, weights_of g u = Some ws /\ Forall lw_ok ws /\ 0 < Rsum (map wexp ws).

Lemma Rsum_div {A} (f : A -> R) c l : Rsum (map (fun a => f a / c) l) = Rsum (map f l) / c.
Proof. induction l; simpl; [unfold Rdiv; ring|]. rewrite IHl. unfold Rdiv. ring. Qed.

Lemma sum_normalize_spec g u : positive_total g u ->
  exists f, sum_normalize g u = Some (set_weights u f g) /\ rescaled (out_edges g u) (out_edges (set_weights u f g) u).
Proof.
  intros [ws [Hw [Hok Hp]]]. unfold sum_normalize. pose proof (lws_weights g u) as Hl.
  destruct (log_weighted_subcircuits g u) as [l|] eqn:El; [|congruence]. rewrite Hl in Hw. injection Hw as Hw.
  destruct l as [|p l]; [subst ws; cbn in Hp; lra|]. rewrite Hw. destruct (logsumexp_weights ws Hok Hp) as [z [Hz He]].
  eexists. split; [reflexivity|]. rewrite set_weights_out, Nat.eqb_refl. rewrite Hz, Hw in *.
  exists (exp z). split; [apply exp_pos|]. 
  assert (HF : Forall2 (fun e w => e_lw e = Some w) (out_edges g u) ws) by now apply mapM_Forall2.
  clear El Hw Hl Hz. split.
  - clear He Hp. induction HF as [|e w es ws' H1 HF IH]; simpl; constructor.
    + simpl. split; [auto|split; [auto|]]. inversion Hok; subst. exists w, (nsub w (Fin z)). rewrite H1. destruct (wexp_shift w z); auto.
    + apply IH. now inversion Hok.
  - rewrite map_map. cbn [e_lw].
    transitivity (Rsum (map (fun w => wexp w / exp z) ws)).
    + f_equal. clear He Hp. induction HF as [|e w es ws' H1 HF IH]; [reflexivity|]. cbn [map]. inversion Hok; subst. rewrite H1. cbn [option_map].
      destruct (wexp_shift w z) as [_ ->]; auto. f_equal. auto.
    + rewrite Rsum_div, <- He. field. apply Rgt_not_eq, exp_pos.
Qed.

Lemma positive_total_out g g' u : out_edges g' u = out_edges g u -> positive_total g u -> positive_total g' u.
Proof. unfold positive_total, weights_of. now intros ->. Qed.

Lemma normalize_loop us : forall g, NoDup us -> (forall u, In u us -> positive_total g u) ->
  exists g', foldM (sum_normalize (D := D)) us g = Some g' /\ g_nodes g' = g_nodes g /\
    map (fun e => (e_src e, e_dst e)) (g_edges g') = map (fun e => (e_src e, e_dst e)) (g_edges g) /\
    (forall u, In u us -> rescaled (out_edges g u) (out_edges g' u)) /\
    (forall u, ~ In u us -> out_edges g' u = out_edges g u).
Proof.
  induction us as [|u us IH]; intros g Hnd Hp; cbn [foldM].
  - exists g. auto 6. split; [auto|split; [auto|split; [auto|split; [intros u []|auto]]]].
  - inversion Hnd as [|? ? Hu Hnd']; subst. destruct (sum_normalize_spec g u) as [f [H1 H2]]; [apply Hp; now left|]. rewrite H1.
    assert (Ho : forall v, v <> u -> out_edges (set_weights u f g) v = out_edges g v).
    { intros v Hv. rewrite set_weights_out. apply Nat.eqb_neq in Hv. now rewrite Hv. }
    destruct (IH (set_weights u f g)) as [g' [G1 [G2 [G3 [G4 G5]]]]]; auto.
    + intros v Hv. apply (positive_total_out g); [apply Ho; intros ->; auto|]. apply Hp. now right.
    + exists g'. split; [auto|]. split; [auto|]. split; [|split].
      * rewrite G3. unfold set_weights. simpl. rewrite map_map. apply map_ext. intros e. now destruct (e_src e =? u)%nat.
      * intros v [->|Hv].
        -- rewrite G5 by auto. exact H2.
        -- rewrite <- (Ho v); [auto|intros ->; auto].
      * intros v Hv. rewrite G5, Ho; auto; intros E; apply Hv; [now left|now right].
Qed.

Lemma sum_ids_In g u : NoDup (node_ids g) -> In u (sum_ids g) <-> node_kind g u = Some USum.
Proof.
  intros Hnd. unfold sum_ids. rewrite in_map_iff. split.
  - intros [[v k] [<- Hin]]. apply filter_In in Hin. destruct Hin as [Hin Hk]. destruct k; try discriminate. apply node_kind_NoDup; auto.
  - intros Hk. exists (u, USum). split; auto. apply filter_In. split; auto. now apply node_kind_In in Hk.
Qed.

Theorem normalize_spec g : NoDup (node_ids g) -> (forall u, node_kind g u = Some USum -> positive_total g u) ->
  exists g', normalize g = Some g' /\ g_nodes g' = g_nodes g /\
    map (fun e => (e_src e, e_dst e)) (g_edges g') = map (fun e => (e_src e, e_dst e)) (g_edges g) /\
    (forall u, node_kind g u = Some USum -> rescaled (out_edges g u) (out_edges g' u)) /\
    (forall u, node_kind g u <> Some USum -> out_edges g' u = out_edges g u).
Proof.
  intros Hnd Hp. unfold normalize.
  destruct (normalize_loop (sum_ids g) g) as [g' [H1 [H2 [H3 [H4 H5]]]]].
  - unfold sum_ids. now apply NoDup_map_filter.
  - intros u Hu. apply Hp. now apply sum_ids_In.
  - exists g'. split; [auto|split; [auto|split; [auto|split]]].
    + intros u Hu. apply H4. now apply sum_ids_In.
    + intros u Hu. apply H5. intros Hin. apply Hu. now apply sum_ids_In.
Qed.
End Norm.
