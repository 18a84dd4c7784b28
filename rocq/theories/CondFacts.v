(** * CondFacts: conditioning one univariate distribution on a simple interval *)
From Coq Require Import List Arith Bool Lia Reals Lra ZArith.
From Verif Require Import Num Interval GaussInt Dist DistFacts.
Import ListNotations.
Local Open Scope R_scope.

Lemma nle_trans a b c : nle a b -> nle b c -> nle a c.
Proof. intros [->|H] [->|H']; [now left|now right|now right|right; eapply nlt_trans; eauto]. Qed.

Lemma nlt_nle_trans a b c : nlt a b -> nle b c -> nlt a c.
Proof. intros H [<-|H']; auto. eapply nlt_trans; eauto. Qed.

(** A cut point never lies inside a cell. *)
Lemma cells_cut cs : forall a, chain a cs -> forall c p, In c (a :: cs) -> In p (cells a cs) ->
  nlt (fst p) (snd p) /\ (nle (snd p) c \/ nle c (fst p)).
Proof.
  induction cs as [|b cs IH]; simpl; intros a Hc c p Hin Hp; [tauto|]. destruct Hc as [Hab Hc].
  destruct Hp as [<-|Hp]; simpl.
  - split; auto. destruct Hin as [<-|[<-|Hin]]; [right; now left|left; now left|left; right]. eapply chain_lt; eauto.
  - destruct Hin as [<-|Hin].
    + destruct (IH b Hc b p (or_introl eq_refl) Hp) as [H1 [H2|H2]]; split; auto.
      * exfalso. assert (G : forall cs b p, chain b cs -> In p (cells b cs) -> nle b (fst p)).
        { clear. induction cs as [|c cs IH]; simpl; intros b p H Hp; [tauto|]. destruct H. destruct Hp as [<-|Hp]; [now left|].
          right. destruct (IH c p H0 Hp) as [->|]; auto. eapply nlt_trans; eauto. }
        assert (G' := G _ _ _ Hc Hp). apply (nlt_irrefl (fst p)).
        eapply nlt_nle_trans; [exact H1|]. eapply nle_trans; eauto.
      * right. eapply nle_trans; [right; exact Hab|exact H2].
    + apply (IH b Hc c p); auto.
Qed.

(** [F'] is the cdf obtained from [F] by restricting to the simple interval [j] and dividing by [c]. *)
Definition restricts (F F' : num -> R) (j : sint) (c : R) : Prop :=
  forall x y, nlt x y ->
    (nle (lo j) x -> nle y (hi j) -> F' y - F' x = (F y - F x) / c) /\
    (nle y (lo j) \/ nle (hi j) x -> F' y = F' x).

Lemma measure_cond F F' j c A B : sint_ok j -> restricts F F' j c -> interval_ok A -> interval_ok B ->
  (forall x, in_interval B x = in_interval A x && in_sint j x) -> measure F' A = measure F B / c.
Proof.
  intros Hj HR HA HB HAB. set (l := cuts_of A ++ cuts_of B ++ cuts_of [j]).
  rewrite (measure_by_points F' A l), (measure_by_points F B l); auto;
    try (unfold l; intros z Hz; rewrite !in_app_iff; tauto).
  assert (Hb := cut_list_bounds [j] l j ltac:(unfold l; intros z Hz; rewrite !in_app_iff; tauto) ltac:(now left) Hj).
  unfold Rdiv. rewrite Rmult_comm, <- Rsum_scal. apply Rsum_ext. intros p Hp.
  destruct (cells_cut _ _ (cut_list_chain l) (lo j) p (proj1 Hb) Hp) as [Hlt H1].
  destruct (cells_cut _ _ (cut_list_chain l) (hi j) p (proj2 Hb) Hp) as [_ H2].
  destruct Hj as [Hj1 [Hj2 [Hj3 [Hj4 _]]]].
  destruct (between_in j p Hlt) as [Bin Bout]. destruct (HR _ _ Hlt) as [R1 R2]. unfold dlt. rewrite HAB.
  destruct H1 as [H1|H1].
  - rewrite Bout, R2 by auto. rewrite andb_false_r. simpl. ring.
  - destruct H2 as [H2|H2].
    + rewrite Bin by auto. rewrite R1 by auto. rewrite andb_true_r. unfold Rdiv. ring.
    + rewrite Bout, R2 by auto. rewrite andb_false_r. simpl. ring.
Qed.

Lemma unif_cdf_in v i a b r : lo i = Fin a -> hi i = Fin b -> a < b -> a <= r <= b ->
  cdfR (DUnif v i) (Fin r) = (r - a) / (b - a).
Proof.
  intros E1 E2 Hab Hr. simpl. rewrite E1, E2.
  assert (0 <= (r - a) / (b - a)) by (apply Rmult_le_pos; [lra|]; left; apply Rinv_0_lt_compat; lra).
  assert ((r - a) / (b - a) <= 1) by (apply Rmult_le_reg_r with (b - a); [lra|]; field_simplify; lra).
  rewrite Rmax_right, Rmin_right; auto.
Qed.

Lemma unif_cdf_left v i a b x : lo i = Fin a -> hi i = Fin b -> a < b -> nle x (Fin a) -> cdfR (DUnif v i) x = 0.
Proof.
  intros E1 E2 Hab [->|Hx]; simpl; rewrite E1, E2.
  - replace ((a - a) / (b - a)) with 0 by (field; lra). rewrite Rmax_left, Rmin_right; lra.
  - destruct x as [| |x|]; simpl in Hx; try tauto; auto.
    assert ((x - a) / (b - a) <= 0).
    { apply Rmult_le_reg_r with (b - a); [lra|]. field_simplify; lra. }
    rewrite Rmax_left, Rmin_right; lra.
Qed.

Lemma unif_cdf_right v i a b x : lo i = Fin a -> hi i = Fin b -> a < b -> nle (Fin b) x -> cdfR (DUnif v i) x = 1.
Proof.
  intros E1 E2 Hab [<-|Hx]; simpl; rewrite E1, E2.
  - replace ((b - a) / (b - a)) with 1 by (field; lra). rewrite Rmax_right, Rmin_left; lra.
  - destruct x as [| |x|]; simpl in Hx; try tauto; auto.
    assert (1 <= (x - a) / (b - a)).
    { apply Rmult_le_reg_r with (b - a); [lra|]. field_simplify; lra. }
    rewrite Rmax_right, Rmin_left; lra.
Qed.

Lemma unif_restricts v i j a b c d : lo i = Fin a -> hi i = Fin b -> a < b -> lo j = Fin c -> hi j = Fin d -> c < d ->
  a <= c -> d <= b ->
  restricts (cdfR (DUnif v i)) (cdfR (DUnif v j)) j (cdfR (DUnif v i) (hi j) - cdfR (DUnif v i) (lo j)).
Proof.
  intros E1 E2 Hab E3 E4 Hcd H1 H2 x y Hxy. split.
  - rewrite E3, E4. intros Hx Hy.
    assert (exists rx, x = Fin rx /\ c <= rx) as [rx [-> Hrx]].
    { destruct Hx as [<-|Hx]; [exists c; split; auto; lra|]. destruct x as [| |x|]; simpl in *; try tauto; exists x; split; auto; lra. }
    assert (exists ry, y = Fin ry /\ ry <= d) as [ry [-> Hry]].
    { destruct Hy as [->|Hy]; [exists d; split; auto; lra|]. destruct y as [| |y|]; simpl in *; try tauto; exists y; split; auto; lra. }
    simpl in Hxy.
    rewrite !(unif_cdf_in v j c d), !(unif_cdf_in v i a b); auto; try lra. field. lra.
  - intros [Hy|Hx].
    + rewrite !(unif_cdf_left v j c d); auto; rewrite <- E3; auto. right. eapply nlt_nle_trans; eauto.
    + rewrite !(unif_cdf_right v j c d); auto; rewrite <- E4; auto. eapply nle_trans; [exact Hx|now right].
Qed.

Lemma cdf1_cont d x : is_cont d -> dist_ok d -> x <> NaN -> cdf1 d x = Some (Fin (cdfR d x)).
Proof.
  intros Hc Hok Hx. assert (E := continuous_cdf_R d x Hc Hok Hx). unfold continuous_cdf in E.
  destruct (cdf1 d x) eqn:Ec; [congruence|]. destruct d; simpl in *; tauto || discriminate.
Qed.

(** Truncated Gaussians. *)
Lemma nle_not_nlt a b : nle a b -> ~ nlt b a.
Proof. intros H H'. apply (nlt_irrefl b). eapply nlt_nle_trans; eauto. Qed.

Lemma gcdfR_mono mu s a b : 0 < s -> nle a b -> gcdfR mu s a <= gcdfR mu s b.
Proof. intros Hs [->|H]; [lra|]. apply Rlt_le. now apply gcdfR_strict. Qed.

Lemma tg_cdf_left v i mu s x : dist_ok (DTGauss v i mu s) -> nle x (lo i) -> cdfR (DTGauss v i mu s) x = 0.
Proof.
  intros [Hs [H1 [H2 H3]]] Hx. simpl. destruct (left_included i x) eqn:E; auto.
  assert (nle (lo i) x).
  { apply left_included_le; auto. intros ->. destruct Hx as [Hx|Hx]; [congruence|destruct Hx]. }
  assert (x = lo i) as ->.
  { destruct Hx as [->|Hx]; auto. exfalso. exact (nle_not_nlt _ _ H Hx). }
  replace (gcdfR mu s (lo i) - gcdfR mu s (lo i)) with 0 by ring. unfold Rdiv. rewrite Rmult_0_l. apply Rmin_right. lra.
Qed.

Lemma left_included_lt i x : nlt (lo i) x -> left_included i x = true.
Proof.
  unfold left_included. destruct (lo i), x; simpl; try tauto. intros H. destruct (lc i); rb; auto; lra.
Qed.

Lemma tg_cdf_in v i mu s x : dist_ok (DTGauss v i mu s) -> nle (lo i) x -> nle x (hi i) ->
  cdfR (DTGauss v i mu s) x = (gcdfR mu s x - gcdfR mu s (lo i)) / (gcdfR mu s (hi i) - gcdfR mu s (lo i)).
Proof.
  intros Hok [<-|Hx] Hy.
  - rewrite tg_cdf_left; auto; [|now left]. unfold Rdiv. ring.
  - destruct Hok as [Hs [H1 [H2 H3]]]. simpl. rewrite left_included_lt by auto. apply Rmin_right.
    assert (Hlt := gcdfR_strict mu s _ _ Hs H3). assert (Hm := gcdfR_mono mu s _ _ Hs Hy).
    apply Rmult_le_reg_r with (gcdfR mu s (hi i) - gcdfR mu s (lo i)); [lra|]. field_simplify; lra.
Qed.

Lemma tg_cdf_right v i mu s x : dist_ok (DTGauss v i mu s) -> nle (hi i) x -> cdfR (DTGauss v i mu s) x = 1.
Proof.
  intros Hok Hx. assert (Hok' := Hok). destruct Hok as [Hs [H1 [H2 H3]]]. simpl.
  rewrite left_included_lt by (eapply nlt_nle_trans; eauto). apply Rmin_left.
  assert (Hlt := gcdfR_strict mu s _ _ Hs H3). assert (Hm := gcdfR_mono mu s _ _ Hs Hx).
  apply Rmult_le_reg_r with (gcdfR mu s (hi i) - gcdfR mu s (lo i)); [lra|]. field_simplify; lra.
Qed.

Lemma gauss_restricts v mu s j : dist_ok (DTGauss v j mu s) ->
  restricts (cdfR (DGauss v mu s)) (cdfR (DTGauss v j mu s)) j (gcdfR mu s (hi j) - gcdfR mu s (lo j)).
Proof.
  intros Hok x y Hxy. assert (Hok' := Hok). destruct Hok' as [Hs [H1 [H2 H3]]].
  assert (Hlt := gcdfR_strict mu s _ _ Hs H3). split.
  - intros Hx Hy. assert (nle (lo j) y) by (eapply nle_trans; [exact Hx|now right]).
    assert (nle x (hi j)) by (eapply nle_trans; [right; exact Hxy|exact Hy]).
    rewrite !tg_cdf_in; auto. change (cdfR (DGauss v mu s)) with (gcdfR mu s). field. lra.
  - intros [Hy|Hx].
    + rewrite !tg_cdf_left; auto. eapply nle_trans; [right; exact Hxy|exact Hy].
    + rewrite !tg_cdf_right; auto. eapply nle_trans; [exact Hx|now right].
Qed.

Lemma tg_restricts v mu s i j : dist_ok (DTGauss v i mu s) -> dist_ok (DTGauss v j mu s) ->
  nle (lo i) (lo j) -> nle (hi j) (hi i) ->
  restricts (cdfR (DTGauss v i mu s)) (cdfR (DTGauss v j mu s)) j
            (cdfR (DTGauss v i mu s) (hi j) - cdfR (DTGauss v i mu s) (lo j)).
Proof.
  intros Hi Hok Hl Hh x y Hxy. assert (Hok' := Hok). destruct Hok' as [Hs [H1 [H2 H3]]].
  assert (Hi' := Hi). destruct Hi' as [_ [I1 [I2 I3]]].
  assert (Hlt := gcdfR_strict mu s _ _ Hs H3). assert (Hlti := gcdfR_strict mu s _ _ Hs I3). split.
  - intros Hx Hy. assert (nle (lo j) y) by (eapply nle_trans; [exact Hx|now right]).
    assert (nle x (hi j)) by (eapply nle_trans; [right; exact Hxy|exact Hy]).
    assert (nle (lo i) (hi j)) by (eapply nle_trans; [exact Hl|now right]).
    assert (nle (lo j) (hi i)) by (eapply nle_trans; [right; exact H3|exact Hh]).
    rewrite !(tg_cdf_in v j) by auto. rewrite !(tg_cdf_in v i); eauto using nle_trans. field. lra.
  - intros [Hy|Hx].
    + rewrite !tg_cdf_left; auto. eapply nle_trans; [right; exact Hxy|exact Hy].
    + rewrite !tg_cdf_right; auto. eapply nle_trans; [exact Hx|now right].
Qed.

(** Conditioning on a non-singleton interval inside the support: the returned distribution is well formed, its probability is
    the restriction divided by P(E), and the reported value is log P(E). *)
Definition inside (d : dist) (j : sint) : Prop :=
  match d with
  | DUnif _ i | DTGauss _ i _ _ => nle (lo i) (lo j) /\ nle (hi j) (hi i)
  | _ => True
  end.

Theorem cond_simple_interval_bayes d j : is_cont d -> dist_ok d -> sint_ok j -> nlt (lo j) (hi j) -> inside d j ->
  exists q, cond_simple_interval d j = Some (q, nlog (Fin (probR d (EInt [j])))) /\ is_cont q /\ dist_ok q /\ dvar q = dvar d /\
    0 < probR d (EInt [j]) /\
    (forall A B, interval_ok A -> interval_ok B -> (forall x, in_interval B x = in_interval A x && in_sint j x) ->
       probR q (EInt A) = probR d (EInt B) / probR d (EInt [j])).
Proof.
  intros Hc Hok Hj Hlt Hin.
  assert (Hjok : interval_ok [j]) by (split; [constructor; auto|simpl; split; auto; intros ? []]).
  assert (Hns : is_singleton j = false).
  { unfold is_singleton. destruct (lo j), (hi j); auto. simpl in Hlt. rb; auto. lra. }
  assert (Hj' := Hj). destruct Hj' as [J1 [J2 [J3 [J4 _]]]].
  assert (Hm : forall F, measure F [j] = F (hi j) - F (lo j)).
  { intros F. unfold measure, delta. cbn. ring. }
  unfold cond_simple_interval. rewrite Hns. destruct d as [v i|v l c|v mu s|v i mu s|v p|v p]; simpl in Hc; try tauto.
  - destruct Hok as [a [b [E1 [E2 Hab]]]]. destruct Hin as [I1 I2]. rewrite E1 in I1. rewrite E2 in I2.
    assert (exists c, lo j = Fin c /\ a <= c) as [c [E3 Hac]].
    { destruct I1 as [<-|I1]; [exists a; split; auto; lra|]. destruct (lo j) as [| |c|]; simpl in *; try tauto; try congruence.
      exists c; split; auto; lra. }
    assert (exists d, hi j = Fin d /\ d <= b) as [d [E4 Hdb]].
    { destruct I2 as [->|I2]; [exists b; split; auto; lra|]. destruct (hi j) as [| |d|]; simpl in *; try tauto; try congruence.
      exists d; split; auto; lra. }
    assert (Hcd : c < d) by (rewrite E3, E4 in Hlt; exact Hlt).
    rewrite continuous_prob_R; simpl; eauto; try discriminate. exists (DUnif v j).
    change (probR (DUnif v i) (EInt [j])) with (measure (cdfR (DUnif v i)) [j]).
    repeat split; simpl; auto; [exists c, d; auto| |].
    + rewrite Hm, E3, E4, !(unif_cdf_in v i a b) by (auto; lra).
      replace ((d - a) / (b - a) - (c - a) / (b - a)) with ((d - c) / (b - a)) by (field; lra).
      apply Rdiv_lt_0_compat; lra.
    + intros A B HA HB H. rewrite Hm.
      apply (measure_cond (cdfR (DUnif v i)) (cdfR (DUnif v j)) j _ A B); auto. now apply (unif_restricts v i j a b c d).
  - exists (DTGauss v j mu s). assert (dist_ok (DTGauss v j mu s)) by (repeat split; auto).
    rewrite !(continuous_cdf_R (DGauss v mu s)) by (simpl; auto).
    change (probR (DGauss v mu s) (EInt [j])) with (measure (cdfR (DGauss v mu s)) [j]). rewrite Hm.
    split; [simpl; do 4 f_equal|]. repeat split; auto.
    + simpl. assert (L := gcdfR_strict mu s _ _ Hok Hlt). lra.
    + intros A B HA HB Hx. apply (measure_cond (cdfR (DGauss v mu s)) (cdfR (DTGauss v j mu s)) j _ A B); auto.
      now apply gauss_restricts.
  - exists (DTGauss v j mu s). assert (Hq : dist_ok (DTGauss v j mu s)) by (destruct Hok; repeat split; auto).
    rewrite !(continuous_cdf_R (DTGauss v i mu s)) by (simpl in *; tauto).
    change (probR (DTGauss v i mu s) (EInt [j])) with (measure (cdfR (DTGauss v i mu s)) [j]). rewrite Hm.
    destruct Hin as [I1 I2].
    split; [reflexivity|]. repeat split; auto; try apply Hq.
    + assert (Hok' := Hok). destruct Hok' as [Hs [_ [_ H3]]].
      assert (nle (lo j) (hi i)) by (eapply nle_trans; [right; exact Hlt|auto]).
      assert (nle (lo i) (hi j)) by (eapply nle_trans; [exact I1|now right]).
      rewrite !(tg_cdf_in v i) by auto.
      assert (L := gcdfR_strict mu s _ _ Hs Hlt). assert (L' := gcdfR_strict mu s _ _ Hs H3).
      replace ((gcdfR mu s (hi j) - gcdfR mu s (lo i)) / (gcdfR mu s (hi i) - gcdfR mu s (lo i)) -
               (gcdfR mu s (lo j) - gcdfR mu s (lo i)) / (gcdfR mu s (hi i) - gcdfR mu s (lo i)))
        with ((gcdfR mu s (hi j) - gcdfR mu s (lo j)) / (gcdfR mu s (hi i) - gcdfR mu s (lo i))) by (field; lra).
      apply Rdiv_lt_0_compat; lra.
    + intros A B HA HB Hx. apply (measure_cond (cdfR (DTGauss v i mu s)) (cdfR (DTGauss v j mu s)) j _ A B); auto.
      now apply tg_restricts.
Qed.
