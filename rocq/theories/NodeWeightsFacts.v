(** * NodeWeightsFacts: which paths the breadth-first search of [nodes_weights] counts *)
From Coq Require Import List Arith Bool Lia Reals Lra Permutation.
From Verif Require Import Num Graph GraphFacts Circuit NodeWeights.
Import ListNotations.
Local Set Bullet Behavior "Strict Subproofs".
Local Open Scope nat_scope.

Inductive path {D} (g : graph D) (u : id) : id -> list edge -> Prop :=
| path_nil : path g u u []
| path_snoc v e es : path g u v es -> In e (g_edges g) -> e_src e = v -> path g u (e_dst e) (es ++ [e]).

Definition path_weight (w : edge -> R) (es : list edge) : R := Rprod (map w es).

Lemma path_reach {D} (g : graph D) u v es : path g u v es -> reach g u v.
Proof. induction 1 as [|v e es _ IH He Hs]; [apply reach_refl|]. now apply (reach_step g u v). Qed.

Lemma reach_path {D} (g : graph D) u v : reach g u v -> exists es, path g u v es.
Proof. induction 1 as [|v e _ [es IH] He Hs]; [exists []; constructor|]. exists (es ++ [e]). now apply (path_snoc g u v). Qed.

Lemma path_last {D} (g : graph D) u v es : path g u v es -> es = [] /\ v = u \/ exists es' e, es = es' ++ [e] /\ In e (g_edges g) /\ e_dst e = v /\ path g u (e_src e) es'.
Proof. intros [|w e es' H He Hs]; [left; auto|right]. exists es', e. subst w. auto. Qed.

Section Loop.
Context {D : Type}.
Variables (attr : edge -> option R) (g : graph D) (r : id).
Hypothesis Hwf : wf g.
Hypothesis Hr : In r (node_ids g).
(** [G] says that the levels [lv] exist. *)
Variables (G : Prop) (lv : id -> nat).
Hypothesis HG : G -> lv r = 0 /\ forall e, In e (g_edges g) -> reach g r (e_src e) -> lv (e_dst e) = S (lv (e_src e)).

Let w := edge_weight attr.

Definition ends_in (S : list edge) (es : list edge) : Prop := es = [] \/ exists es' e, es = es' ++ [e] /\ In e S.

Definition counted (m : weights_map) (S : list edge) : Prop := forall u, exists ps,
  get_weights m u = map (path_weight w) ps /\ NoDup ps /\ (forall es, In es ps -> path g r u es /\ ends_in S es) /\
  (G -> forall es, path g r u es -> ends_in S es -> In es ps).

Lemma get_set m u v ws : get_weights (set_weights m u ws) v = if u =? v then ws else get_weights m v.
Proof. unfold get_weights, set_weights. cbn [find fst]. destruct (u =? v); reflexivity. Qed.

Lemma weight_snoc es e : path_weight w (es ++ [e]) = (path_weight w es * w e)%R.
Proof.
  unfold path_weight. rewrite map_app. cbn [map]. induction (map w es) as [|a l IH]; cbn [app Rprod fold_right]; [ring|]. unfold Rprod in IH. rewrite IH. ring.
Qed.

Lemma NoDup_app' {A} (a b : list A) : NoDup a -> NoDup b -> (forall x, In x a -> ~ In x b) -> NoDup (a ++ b).
Proof.
  induction a as [|x a IH]; intros H1 H2 H3; [exact H2|]. inversion H1; subst. cbn. constructor; [|apply IH; auto; intros y Hy; apply H3; now right].
  rewrite in_app_iff. intros [H|H]; [auto|]. apply (H3 x); [now left|exact H].
Qed.

Lemma counted_visit m S v e : counted m S -> In e (g_edges g) -> e_src e = v -> ~ In e S -> (G -> forall es, path g r v es -> ends_in S es) ->
  counted (set_weights m (e_dst e) (map (fun old => (old * w e)%R) (get_weights m v) ++ get_weights m (e_dst e))) (S ++ [e]).
Proof.
  intros HC He Hs Hn Hv u. rewrite get_set.
  assert (Mono : forall es, ends_in S es -> ends_in (S ++ [e]) es).
  { intros es [->|(es' & e' & -> & H)]; [now left|]. right. exists es', e'. rewrite in_app_iff. auto. }
  destruct (Nat.eqb_spec (e_dst e) u) as [<-|N].
  - destruct (HC v) as (pv & V1 & V2 & V3 & V4). destruct (HC (e_dst e)) as (pu & U1 & U2 & U3 & U4). exists (map (fun es => es ++ [e]) pv ++ pu). split; [|split; [|split]].
    + rewrite V1, U1, map_app, !map_map. f_equal. apply map_ext. intros es. symmetry. apply weight_snoc.
    + apply NoDup_app'; [|exact U2|].
      * apply FinFun.Injective_map_NoDup; [|exact V2]. intros a b H. now apply app_inj_tail in H.
      * intros es H H'. apply in_map_iff in H as (es' & <- & _). destruct (U3 _ H') as [_ [E|(a & b & E & Hb)]]; [now destruct es'|]. apply app_inj_tail in E as [_ <-]. auto.
    + intros es H. apply in_app_iff in H as [H|H].
      * apply in_map_iff in H as (es' & <- & H). destruct (V3 _ H) as [H1 _]. split; [now apply (path_snoc g r v)|]. right. exists es', e. split; [reflexivity|]. apply in_app_iff. right. now left.
      * destruct (U3 _ H) as [H1 H2]. auto.
    + intros HGt es Hp He'. apply in_app_iff. destruct He' as [->|(es' & e' & -> & H)].
      * right. apply U4; auto. now left.
      * apply in_app_iff in H as [H|[<-|[]]].
        -- right. apply U4; auto. right. eauto.
        -- left. apply in_map_iff. exists es'. split; [reflexivity|]. destruct (path_last g r _ _ Hp) as [[E _]|(a & b & E & _ & _ & Hp')]; [now destruct es'|].
           apply app_inj_tail in E as [<- <-]. rewrite Hs in Hp'. apply V4; auto.
  - destruct (HC u) as (pu & U1 & U2 & U3 & U4). exists pu. split; [exact U1|]. split; [exact U2|]. split.
    + intros es H. destruct (U3 _ H). auto.
    + intros HGt es Hp He'. apply U4; auto. destruct He' as [->|(es' & e' & -> & H)]; [now left|]. apply in_app_iff in H as [H|[<-|[]]]; [right; eauto|].
      destruct (path_last g r _ _ Hp) as [[E _]|(a & b & E & _ & Hd & _)]; [now destruct es'|]. apply app_inj_tail in E as [_ <-]. congruence.
Qed.

Lemma visit_all v l : forall m seen queue S, (forall e, In e l -> In e (g_edges g) /\ e_src e = v) -> NoDup l -> (forall e, In e l -> ~ In e S) -> counted m S ->
  (G -> forall es, path g r v es -> ends_in S es) -> (forall x, In x queue -> In x seen) ->
  exists m' seen' new, fold_left (visit attr v) l (m, seen, queue) = (m', seen', queue ++ new) /\ counted m' (S ++ l) /\
    (forall x, In x seen' <-> In x seen \/ In x new) /\ NoDup new /\ (forall x, In x new -> ~ In x seen /\ exists e, In e l /\ e_dst e = x) /\ (forall e, In e l -> In (e_dst e) seen').
Proof.
  induction l as [|e l IH]; intros m seen queue S Hl Nl HS HC Hv Hq.
  - exists m, seen, []. rewrite !app_nil_r. split; [reflexivity|]. split; [exact HC|]. split; [cbn; tauto|]. split; [constructor|]. split; [intros x []|intros e []].
  - inversion Nl as [|? ? N1 N2]; subst. destruct (Hl e (or_introl eq_refl)) as [He Hs]. cbn [fold_left]. unfold visit at 2.
    pose proof (counted_visit m S v e HC He Hs (HS e (or_introl eq_refl)) Hv) as HC'. unfold w in HC'. set (m1 := set_weights _ _ _) in *.
    assert (HS' : forall e', In e' l -> ~ In e' (S ++ [e])) by (intros e' H; rewrite in_app_iff; intros [H'|[<-|[]]]; [apply (HS e'); [now right|exact H']|auto]).
    assert (Hv' : G -> forall es, path g r v es -> ends_in (S ++ [e]) es).
    { intros HGt es Hp. destruct (Hv HGt es Hp) as [->|(a & b & -> & H)]; [now left|]. right. exists a, b. rewrite in_app_iff. auto. }
    assert (Hl' : forall e', In e' l -> In e' (g_edges g) /\ e_src e' = v) by (intros e' H; apply Hl; now right).
    destruct (existsb (Nat.eqb (e_dst e)) seen) eqn:Ex.
    + apply existsb_eqb_In in Ex. destruct (IH m1 seen queue (S ++ [e]) Hl' N2 HS' HC' Hv' Hq) as (m' & seen' & new & E1 & E2 & E3 & E4 & E5 & E6).
      exists m', seen', new. rewrite <- app_assoc in E2. split; [exact E1|]. split; [exact E2|]. split; [exact E3|]. split; [exact E4|]. split.
      * intros x Hx. destruct (E5 x Hx) as [H1 (e' & H2 & H3)]. split; [exact H1|]. exists e'. split; [now right|exact H3].
      * intros e' [<-|H]; [apply E3; now left|now apply E6].
    + apply existsb_eqb_nIn in Ex.
      destruct (IH m1 (e_dst e :: seen) (queue ++ [e_dst e]) (S ++ [e]) Hl' N2 HS' HC' Hv') as (m' & seen' & new & E1 & E2 & E3 & E4 & E5 & E6).
      { intros x Hx. apply in_app_iff in Hx as [Hx|[<-|[]]]; [right; auto|now left]. }
      exists m', seen', (e_dst e :: new). rewrite <- !app_assoc in *. split; [exact E1|]. split; [exact E2|]. split; [|split; [|split]].
      * intros x. rewrite E3. cbn. tauto.
      * constructor; [|exact E4]. intros H. destruct (E5 _ H) as [H1 _]. apply H1. now left.
      * intros x [<-|Hx]; [split; [exact Ex|]; exists e; split; [now left|reflexivity]|]. destruct (E5 x Hx) as [H1 (e' & H2 & H3)].
        split; [intros H; apply H1; now right|]. exists e'. split; [now right|exact H3].
      * intros e' [<-|H]; [apply E3; left; now left|now apply E6].
Qed.

Lemma visit_filled v l : forall m seen queue m' seen' queue', fold_left (visit attr v) l (m, seen, queue) = (m', seen', queue') -> In v seen ->
  (forall u, In u seen -> get_weights m u <> []) -> forall u, In u seen' -> get_weights m' u <> [].
Proof.
  induction l as [|e l IH]; intros m seen queue m' seen' queue' E Hv Hm; [injection E as <- <- <-; exact Hm|]. cbn [fold_left] in E. unfold visit at 2 in E.
  assert (K : forall x, x = e_dst e \/ In x seen -> get_weights (set_weights m (e_dst e) (map (fun old => (old * edge_weight attr e)%R) (get_weights m v) ++ get_weights m (e_dst e))) x <> []).
  { intros x Hx. rewrite get_set. specialize (Hm v Hv) as Hmv. destruct (Nat.eqb_spec (e_dst e) x) as [_|N]; [destruct (get_weights m v); [congruence|discriminate]|]. destruct Hx as [->|Hx]; [congruence|auto]. }
  destruct (existsb (Nat.eqb (e_dst e)) seen).
  - apply (IH _ _ _ _ _ _ E); auto.
  - apply (IH _ _ _ _ _ _ E); [now right|]. intros x [<-|Hx]; auto.
Qed.

(** Levels of the queue. *)
Definition levels (P queue : list id) : Prop := exists k Q1 Q2, queue = Q1 ++ Q2 /\ (forall q, In q Q1 -> lv q = k) /\ (forall q, In q Q2 -> lv q = S k) /\
  (forall u, reach g r u -> lv u < k -> In u P) /\ (forall u, reach g r u -> lv u = k -> In u (P ++ queue)).

Definition invariant (P : list id) (m : weights_map) (seen queue : list id) : Prop :=
  (forall u, In u seen <-> In u (P ++ queue)) /\ NoDup (P ++ queue) /\ In r seen /\ (forall u, In u seen -> reach g r u) /\
  (forall e, In e (g_edges g) -> In (e_src e) P -> In (e_dst e) seen) /\
  (exists S, (forall e, In e S <-> In e (g_edges g) /\ In (e_src e) P) /\ counted m S) /\ (forall u, In u seen -> get_weights m u <> []) /\ (G -> levels P queue).

Lemma reach_last u : reach g r u -> u = r \/ exists e, In e (g_edges g) /\ e_dst e = u /\ reach g r (e_src e).
Proof.
  intros H. destruct (reach_path g r u H) as [es Hp]. destruct (path_last g r u es Hp) as [[_ ->]|(es' & e & _ & He & Hd & Hp')]; [now left|right].
  exists e. split; [exact He|]. split; [exact Hd|]. now apply path_reach in Hp'.
Qed.

Lemma levels_head P m seen v queue : G -> invariant P m seen (v :: queue) -> exists k Q1 Q2, queue = Q1 ++ Q2 /\ lv v = k /\ (forall q, In q Q1 -> lv q = k) /\ (forall q, In q Q2 -> lv q = S k) /\
  (forall u, reach g r u -> lv u < k -> In u P) /\ (forall u, reach g r u -> lv u = k -> In u (P ++ v :: queue)).
Proof.
  intros HGt (I1 & I2 & I3 & I4 & I5 & _ & _ & I7). destruct (I7 HGt) as (k & Q1 & Q2 & E & L1 & L2 & L3 & L4). destruct (HG HGt) as [H0 Hlv].
  destruct Q1 as [|q Q1].
  - cbn [app] in E. exists (S k), queue, []. rewrite app_nil_r. split; [reflexivity|]. subst Q2. split; [apply L2; now left|]. split; [intros q Hq; apply L2; now right|]. split; [intros q []|].
    assert (K : forall u, reach g r u -> lv u = k -> In u P).
    { intros u Hu Hk. specialize (L4 u Hu Hk). apply in_app_iff in L4 as [H|H]; [exact H|]. specialize (L2 u H). lia. }
    split.
    + intros u Hu Hk. destruct (Nat.eq_dec (lv u) k) as [Ek|Nk]; [now apply K|]. apply L3; [exact Hu|lia].
    + intros u Hu Hk. apply I1. destruct (reach_last u Hu) as [->|(e & He & <- & Hs)]; [exact I3|]. apply I5; [exact He|]. apply K; [exact Hs|]. rewrite (Hlv e He Hs) in Hk. lia.
  - cbn [app] in E. injection E as <- ->. exists k, Q1, Q2. split; [reflexivity|]. split; [apply L1; now left|]. split; [intros x Hx; apply L1; now right|]. auto.
Qed.

Lemma edges_NoDup : NoDup (g_edges g).
Proof. apply (NoDup_map_inv (fun e => (e_src e, e_dst e))). apply (wf_edges g Hwf). Qed.

Lemma step P m seen v queue : invariant P m seen (v :: queue) ->
  exists m' seen' queue', fold_left (visit attr v) (out_edges g v) (m, seen, queue) = (m', seen', queue') /\ invariant (v :: P) m' seen' queue'.
Proof.
  intros HI. pose proof HI as (I1 & I2 & I3 & I4 & I5 & (S & S1 & S2) & I6 & I7).
  assert (Nv : ~ In v P) by (intros H; apply NoDup_remove_2 in I2; apply I2, in_app_iff; now left).
  assert (Rv : reach g r v) by (apply I4, I1, in_app_iff; right; now left).
  assert (Hcomp : G -> forall es, path g r v es -> ends_in S es).
  { intros HGt es Hp. destruct (levels_head P m seen v queue HGt HI) as (k & Q1 & Q2 & -> & Lv & _ & _ & L3 & _). destruct (HG HGt) as [_ Hlv].
    destruct (path_last g r v es Hp) as [[-> _]|(es' & e & -> & He & Hd & Hp')]; [now left|right]. exists es', e. split; [reflexivity|]. apply S1. split; [exact He|].
    apply path_reach in Hp'. apply L3; [exact Hp'|]. pose proof (Hlv e He Hp'). rewrite Hd in *. lia. }
  destruct (visit_all v (out_edges g v) m seen queue S) as (m' & seen' & new & E1 & E2 & E3 & E4 & E5 & E6).
  - intros e He. now apply out_edges_In in He.
  - apply NoDup_filter, edges_NoDup.
  - intros e He H. apply out_edges_In in He as [_ <-]. apply S1 in H. tauto.
  - exact S2.
  - exact Hcomp.
  - intros x Hx. apply I1, in_app_iff. right. now right.
  - exists m', seen', (queue ++ new). split; [exact E1|].
    assert (Mem : forall u, In u seen' <-> In u ((v :: P) ++ queue ++ new)).
    { intros u. rewrite E3, I1. cbn [app In]. rewrite !in_app_iff. cbn. tauto. }
    split; [exact Mem|]. split.
    { cbn [app]. rewrite app_assoc. apply (Permutation_NoDup (l := (P ++ v :: queue) ++ new)).
      - rewrite <- (Permutation_middle P queue v). cbn. rewrite app_assoc || idtac. apply Permutation_refl.
      - apply NoDup_app'; [exact I2|exact E4|]. intros x Hx Hx'. destruct (E5 x Hx') as [H _]. apply H, I1, Hx. }
    split; [apply E3; now left|]. split.
    { intros u Hu. apply E3 in Hu as [Hu|Hu]; [now apply I4|]. destruct (E5 u Hu) as [_ (e & He & <-)]. apply out_edges_In in He as [He Hs]. now apply (reach_step g r v). }
    split.
    { intros e He [Hs|Hs]; [apply E6, out_edges_In; auto|]. apply E3. left. now apply I5. }
    split.
    { exists (S ++ out_edges g v). split; [|exact E2]. intros e. rewrite in_app_iff, S1, out_edges_In. cbn. split; [intros [[]|[]]; auto|intros [H [H'|H']]; auto]. }
    split; [apply (visit_filled v _ _ _ _ _ _ _ E1); [apply I1, in_app_iff; right; now left|exact I6]|].
    intros HGt. destruct (levels_head P m seen v queue HGt HI) as (k & Q1 & Q2 & -> & Lv & L1 & L2 & L3 & L4). destruct (HG HGt) as [_ Hlv].
    exists k, Q1, (Q2 ++ new). rewrite <- app_assoc. split; [reflexivity|]. split; [exact L1|]. split; [|split].
    + intros q Hq. apply in_app_iff in Hq as [Hq|Hq]; [now apply L2|]. destruct (E5 q Hq) as [_ (e & He & <-)]. apply out_edges_In in He as [He Hs]. rewrite (Hlv e He); [now rewrite Hs, Lv|]. now rewrite Hs.
    + intros u Hu Hk. right. now apply L3.
    + intros u Hu Hk. specialize (L4 u Hu Hk). cbn [app In]. rewrite !in_app_iff in *. cbn [In] in L4. rewrite !in_app_iff in L4. tauto.
Qed.

Lemma loop_spec : forall fuel P m seen queue, invariant P m seen queue -> length (g_nodes g) <= length P + fuel ->
  exists m' P' seen', weights_loop attr g fuel (m, seen, queue) = Some m' /\ invariant P' m' seen' [].
Proof.
  induction fuel as [|f IH]; intros P m seen queue HI Hf.
  - destruct queue as [|v queue]; [exists m, P, seen; auto|]. exfalso. pose proof HI as (I1 & I2 & I3 & I4 & _).
    assert (K : length (P ++ v :: queue) <= length (node_ids g)).
    { apply NoDup_incl_len; [exact I2|]. intros u Hu. apply I1, I4 in Hu. destruct (reach_last u Hu) as [->|(e & He & <- & _)]; [exact Hr|]. now apply (wf_dst g Hwf). }
    unfold node_ids in K. rewrite map_length, app_length in K. cbn in K. lia.
  - destruct queue as [|v queue]; [exists m, P, seen; auto|]. cbn [weights_loop].
    destruct (step P m seen v queue HI) as (m1 & seen1 & queue1 & E1 & HI1). rewrite E1. apply (IH (v :: P)); [exact HI1|cbn; lia].
Qed.

Lemma start : invariant [] [(r, [1%R])] [r] [r].
Proof.
  split; [cbn; tauto|]. split; [repeat constructor; intros []|]. split; [now left|]. split; [intros u [<-|[]]; apply reach_refl|]. split; [intros e _ []|]. split.
  - exists []. split; [cbn; tauto|]. intros u. unfold get_weights. cbn [find fst snd]. destruct (Nat.eqb_spec r u) as [<-|N].
    + exists [[]]. split; [reflexivity|]. split; [repeat constructor; intros []|]. split; [intros es [<-|[]]; split; [constructor|now left]|].
      intros _ es _ [->|(a & b & _ & [])]. now left.
    + exists []. split; [reflexivity|]. split; [constructor|]. split; [intros es []|]. intros _ es Hp [->|(a & b & _ & [])]. inversion Hp; subst; [congruence|]. destruct es; discriminate.
  - split; [intros u [<-|[]]; unfold get_weights; cbn [find fst snd]; rewrite Nat.eqb_refl; discriminate|]. intros HGt. destruct (HG HGt) as [H0 Hlv]. exists 0, [r], []. split; [reflexivity|]. split; [intros q [<-|[]]; exact H0|]. split; [intros q []|]. split; [intros; lia|].
    intros u Hu Hk. destruct (reach_last u Hu) as [->|(e & He & <- & Hs)]; [now left|]. rewrite (Hlv e He Hs) in Hk. lia.
Qed.

Theorem search_spec : exists m, weights_loop attr g (S (length (g_nodes g))) ([(r, [1%R])], [r], [r]) = Some m /\
  forall u, exists ps, get_weights m u = map (path_weight w) ps /\ NoDup ps /\ (forall es, In es ps -> path g r u es) /\ (reach g r u -> ps <> []) /\
    (G -> forall es, path g r u es -> In es ps).
Proof.
  destruct (loop_spec (S (length (g_nodes g))) [] _ _ _ start) as (m & P & seen & E & (I1 & I2 & I3 & I4 & I5 & (S & S1 & S2) & I6 & _)); [cbn; lia|].
  assert (K : forall u, reach g r u -> In u P).
  { intros u H. clear -I1 I3 I5 H. rewrite app_nil_r in I1. induction H as [|v e _ IH He Hs]; [now apply I1|]. subst v. apply I1, I5; auto. }
  exists m. split; [exact E|]. intros u. destruct (S2 u) as (ps & H1 & H2 & H3 & H4). exists ps. split; [exact H1|]. split; [exact H2|]. split; [intros es H; now apply H3|]. split.
  - intros Hu ->. apply (I6 u); [apply I1; rewrite app_nil_r; now apply K|exact H1].
  - intros HGt es Hp. apply H4; auto. destruct (path_last g r u es Hp) as [[-> _]|(es' & e & -> & He & Hd & Hp')]; [now left|right]. exists es', e. split; [reflexivity|].
    apply S1. split; [exact He|]. apply path_reach in Hp'. now apply K.
Qed.
End Loop.
