(** * Properties C69, C70: inferred variables and preprocessed data of JPTs *)
From Coq Require Import List Arith Bool Lia ZArith Reals Lra Permutation Sorting.Sorted.
From Verif Require Import Num Graph Spec Circuit EvalFacts VarFacts Interval Dist DistFacts Nyga NygaFacts JptData.
Import ListNotations.
Local Set Bullet Behavior "Strict Subproofs".
Local Open Scope R_scope.

(** ** What a variable has to say about its column *)

(** [d] is the smallest distance of two different values; one if there is a single value. *)
Definition smallest_gap (l : list R) (d : R) : Prop :=
  (forall x y, In x l -> In y l -> x <> y -> d <= Rabs (x - y)) /\
  (((forall x y, In x l -> In y l -> x = y) /\ d = 1) \/ exists x y, In x l /\ In y l /\ x <> y /\ d = Rabs (x - y)).

Definition average (l : list R) (m : R) : Prop := m * INR (length l) = Rsum l.
(** Sample standard deviation. *)
Definition deviation (l : list R) (s : R) : Prop := 0 <= s /\ exists m, average l m /\ s * s * (INR (length l) - 1) = Rsum (map (fun x => (x - m) * (x - m)) l).

Definition statistics (l : list R) (m s : num) : Prop :=
  (l <> [] -> exists r, m = Fin r /\ average l r) /\ ((2 <= length l)%nat -> exists r, s = Fin r /\ deviation l r).

Definition describes (scale : bool) (c : nat * series) (v : jvar) : Prop :=
  match snd c, v with
  | Floats l, JCont sc n m s d => sc = scale /\ n = fst c /\ statistics l m s /\ smallest_gap l d /\ 0 < d
  | Ints l, JInt n m s => n = fst c /\ statistics (map IZR l) m s
  | Objects l, JSym n es => n = fst c /\ StronglySorted lt es /\ forall x, In x es <-> In x l
  | _, _ => False
  end.

(** Columns that can be described: not without floats and of a known type. *)
Definition supported (c : nat * series) : Prop := match snd c with Floats l => l <> [] | Ints _ | Objects _ => True | OtherType _ => False end.

(** ** Distances *)
Lemma fold_Rmin l : forall x, let m := fold_left Rmin l x in (m = x \/ In m l) /\ m <= x /\ forall y, In y l -> m <= y.
Proof.
  induction l as [|a l IH]; intros x; cbn [fold_left]; [split; [now left|split; [lra|intros y []]]|]. destruct (IH (Rmin x a)) as (H1 & H2 & H3). split; [|split].
  - destruct H1 as [H1|H1]; [|right; now right]. rewrite H1. unfold Rmin. destruct (Rle_dec x a); [now left|right; now left].
  - pose proof (Rmin_l x a). cbn in *. lra.
  - intros y [<-|Hy]; [pose proof (Rmin_r x a); cbn in *; lra|now apply H3].
Qed.

(** Neighbours in an ascending list are the closest values. *)
Lemma diffs_pairs l : ascending l -> forall d, In d (diffs l) -> exists x y, In x l /\ In y l /\ x < y /\ d = y - x.
Proof.
  induction l as [|x l IH]; intros Ha d Hd; [destruct Hd|]. destruct l as [|y l]; [destruct Hd|]. change (In d ((y - x) :: diffs (y :: l))) in Hd. destruct Ha as [H1 H2]. destruct Hd as [<-|Hd].
  - exists x, y. split; [now left|]. split; [right; now left|]. split; [apply H1; now left|reflexivity].
  - destruct (IH H2 d Hd) as (a & b & Ia & Ib & Hab & ->). exists a, b. split; [now right|]. split; [now right|]. auto.
Qed.

Lemma diffs_least l : ascending l -> forall x y, In x l -> In y l -> x < y -> exists d, In d (diffs l) /\ d <= y - x.
Proof.
  induction l as [|a l IH]; intros Ha x y Hx Hy Hxy; [destruct Hx|]. destruct Ha as [H1 H2]. destruct l as [|b l].
  - destruct Hx as [<-|[]], Hy as [<-|[]]. lra.
  - change (diffs (a :: b :: l)) with ((b - a) :: diffs (b :: l)). destruct Hx as [<-|Hx].
    + exists (b - a). split; [now left|]. destruct Hy as [<-|Hy]; [lra|]. destruct Hy as [<-|Hy]; [lra|]. destruct H2 as [H2 _]. specialize (H2 y Hy). lra.
    + destruct Hy as [<-|Hy]; [specialize (H1 x Hx); lra|]. destruct (IH H2 x y Hx Hy Hxy) as (d & H3 & H4). exists d. split; [now right|exact H4].
Qed.

Theorem C69_minimal_distance l : l <> [] -> exists d, minimal_distance l = Some d /\ smallest_gap l d /\ 0 < d.
Proof.
  intros Hne. unfold minimal_distance. pose proof (unique_ascending l) as A. pose proof (unique_In l) as HI. set (us := map fst (np_unique l)) in *.
  destruct us as [|a [|b us1]] eqn:E.
  - exfalso. destruct l as [|x l]; [congruence|]. destruct (proj2 (HI x)); now left.
  - cbn [length Nat.eqb]. exists 1. split; [reflexivity|].
    assert (K : forall x y, In x l -> In y l -> x = y). { intros x y Hx Hy. apply HI in Hx, Hy. destruct Hx as [<-|[]], Hy as [<-|[]]. reflexivity. }
    split; [|lra]. split; [|left; auto]. intros x y Hx Hy N. destruct (N (K x y Hx Hy)).
  - cbn [length Nat.eqb]. rewrite <- E in *. assert (exists d l', diffs us = d :: l') as (d & l' & Ed) by (rewrite E; cbn; eauto).
    rewrite Ed. cbn [least]. destruct (fold_Rmin l' d) as (H1 & H2 & H3). set (m := fold_left Rmin l' d) in *. exists m. split; [reflexivity|].
    assert (Hm : In m (diffs us)) by (rewrite Ed; destruct H1 as [->|H1]; [now left|now right]).
    destruct (diffs_pairs us A m Hm) as (x & y & Hx & Hy & Hxy & ->). cbn zeta in *. split; [|lra]. split.
    + intros p q Hp Hq N. apply HI in Hp, Hq.
      assert (K : forall p q, In p us -> In q us -> p < q -> y - x <= q - p).
      { intros p' q' Hp' Hq' Hlt. destruct (diffs_least us A p' q' Hp' Hq' Hlt) as (d' & H4 & H5). rewrite Ed in H4. destruct H4 as [<-|H4]; [lra|]. specialize (H3 d' H4). lra. }
      destruct (Rtotal_order p q) as [H|[H|H]]; [|congruence|].
      * specialize (K p q Hp Hq H). rewrite Rabs_left by lra. lra.
      * specialize (K q p Hq Hp H). rewrite Rabs_right by lra. lra.
    + right. exists x, y. split; [now apply HI|]. split; [now apply HI|]. split; [lra|]. rewrite Rabs_left by lra. lra.
Qed.

(** ** Statistics *)
Lemma statistics_ok l : statistics l (mean l) (std l).
Proof.
  split.
  - intros H. destruct l as [|x l]; [congruence|]. eexists. split; [reflexivity|]. unfold average. field. apply not_0_INR. discriminate.
  - intros H. unfold std, mean. destruct l as [|x [|y l]]; [cbn in H; lia|cbn in H; lia|]. cbn [length Nat.eqb]. eexists. split; [reflexivity|].
    set (m := Rsum (x :: y :: l) / INR (S (S (length l)))). set (V := Rsum (map (fun z => (z - m) * (z - m)) (x :: y :: l))).
    assert (HV : 0 <= V) by (apply Rsum_nonneg, Forall_map, Forall_forall; intros z _; pose proof (Rle_0_sqr (z - m)); unfold Rsqr in *; lra).
    assert (Hn : 1 <= INR (S (S (length l))) - 1) by (rewrite !S_INR; pose proof (pos_INR (length l)); lra).
    split; [apply sqrt_pos|]. exists m. split; [unfold average, m; cbn [length]; field; apply not_0_INR; discriminate|].
    rewrite sqrt_sqrt; [cbn [length]; fold V; field; lra|]. apply Rmult_le_pos; [exact HV|]. left. apply Rinv_0_lt_compat. lra.
Qed.

(** ** C69 *)
Theorem C69_infer scale data : (forall c, In c data -> supported c) -> exists vs, infer_variables scale data = Some vs /\ Forall2 (describes scale) data vs.
Proof.
  unfold infer_variables. induction data as [|[n c] data IH]; intros H; [exists []; split; [reflexivity|constructor]|].
  destruct IH as (vs & E & F); [intros c' Hc; apply H; now right|]. specialize (H (n, c) (or_introl eq_refl)). unfold supported in H. cbn [snd] in H.
  assert (K : exists v, infer_column scale (n, c) = Some v /\ describes scale (n, c) v).
  { unfold infer_column, describes. cbn [fst snd]. destruct c as [l|l|l|k]; [| | |tauto].
    - destruct (C69_minimal_distance l H) as (d & -> & Hd). eexists. split; [reflexivity|]. cbn. split; [reflexivity|]. split; [reflexivity|]. split; [apply statistics_ok|exact Hd].
    - eexists. split; [reflexivity|]. cbn. split; [reflexivity|apply statistics_ok].
    - eexists. split; [reflexivity|]. cbn. split; [reflexivity|]. split; [apply sset_of_sorted|apply sset_of_In]. }
  destruct K as (v & Ev & Dv). exists (v :: vs). change (mapM (infer_column scale) ((n, c) :: data)) with (match infer_column scale (n, c) with None => None | Some b => match mapM (infer_column scale) data with None => None | Some bs => Some (b :: bs) end end).
  rewrite Ev, E. split; [reflexivity|now constructor].
Qed.

(** Other tables are refused. *)
Theorem C69_refused scale data c : In c data -> ~ supported c -> infer_variables scale data = None.
Proof.
  intros Hc Hn. destruct (infer_variables scale data) as [vs|] eqn:E; [|reflexivity]. exfalso. unfold infer_variables in E. apply mapM_Forall2 in E.
  apply Hn. clear -Hc E. induction E as [|a v data vs Ha _ IH]; [destruct Hc|]. destruct Hc as [->|Hc]; [|auto]. unfold supported. unfold infer_column in Ha. destruct (snd c) as [l|l|l|k]; auto; [|discriminate].
  intros ->. discriminate.
Qed.

(** ** C70 *)

(** The numbers [col] stand for the entries of the column: decoding gives the entry back, symbols are numbered in their order. *)
Definition faithful (v : jvar) (c : series) (col : list num) : Prop :=
  match v, c with
  | JCont true _ m s _, Floats l => Forall2 (fun x y => (exists r, y = Fin r) /\ decode m s y = Fin x) l col
  | JCont false _ _ _ _, Floats l => col = map Fin l
  | JInt _ _ _, Ints l => col = map (fun z => Fin (IZR z)) l
  | JSym _ es, Objects l => exists code, col = map (fun x => Fin (INR (code x))) l /\ (forall x, In x l -> (code x < length es)%nat) /\
                              forall x y, In x l -> In y l -> (code x < code y <-> x < y)%nat
  | _, _ => False
  end.

Definition preprocesses (scale : bool) (data : frame) : Prop := exists vs, infer_variables scale data = Some vs /\
  forall vs', Permutation vs vs' -> exists cols, preprocess vs' data = Some cols /\
    Forall2 (fun v col => exists c, In c data /\ fst c = jname v /\ faithful v (snd c) col) vs' cols.

Definition C70_full : Prop := forall scale data, NoDup (map fst data) -> (forall c, In c data -> supported c) -> preprocesses scale data.

Definition varied (l : list R) : Prop := exists x y, In x l /\ In y l /\ x <> y.

Lemma varied_length l : varied l -> (2 <= length l)%nat.
Proof. intros (x & y & Hx & Hy & N). destruct l as [|a [|b l]]; [destruct Hx| |cbn; lia]. destruct Hx as [<-|[]], Hy as [<-|[]]. congruence. Qed.

Lemma varied_std l : varied l -> exists m s, mean l = Fin m /\ std l = Fin s /\ 0 < s /\ average l m /\ s * s * (INR (length l) - 1) = Rsum (map (fun x => (x - m) * (x - m)) l).
Proof.
  intros Hv. pose proof (varied_length l Hv) as Hl. destruct (statistics_ok l) as [H1 H2]. destruct H1 as (m & E1 & A1); [destruct l; [cbn in Hl; lia|discriminate]|].
  destruct (H2 Hl) as (s & E2 & P & m' & A2 & E3). assert (m' = m).
  { unfold average in A1, A2. apply (Rmult_eq_reg_r (INR (length l))); [congruence|]. apply not_0_INR. lia. }
  subst m'. exists m, s. split; [exact E1|]. split; [exact E2|]. split; [|auto]. destruct P as [P|P]; [exact P|]. exfalso. subst s.
  assert (Z : forall x, In x l -> x = m).
  { intros x Hx. assert (Rsum (map (fun x => (x - m) * (x - m)) l) = 0) as Z0 by lra. clear -Hx Z0.
    assert (K : forall l, 0 <= Rsum (map (fun x => (x - m) * (x - m)) l)) by (intros l'; apply Rsum_nonneg, Forall_map, Forall_forall; intros z _; pose proof (Rle_0_sqr (z - m)); unfold Rsqr in *; lra).
    induction l as [|a l IH]; [destruct Hx|]. change (Rsum (map (fun x => (x - m) * (x - m)) (a :: l))) with ((a - m) * (a - m) + Rsum (map (fun x => (x - m) * (x - m)) l)) in Z0.
    specialize (K l). pose proof (Rle_0_sqr (a - m)) as Ha. unfold Rsqr in Ha. destruct Hx as [<-|Hx]; [|apply IH; [exact Hx|lra]].
    assert ((a - m) * (a - m) = 0) by lra. apply Rmult_integral in H. destruct H; lra. }
  destruct Hv as (x & y & Hx & Hy & N). apply N. rewrite (Z x Hx), (Z y Hy). reflexivity.
Qed.

Lemma encode_Fin m s x : s <> 0 -> encode (Fin m) (Fin s) (Fin x) = Fin ((x - m) / s).
Proof. intros H. unfold encode. cbn [nsub nopp nadd]. rewrite ndiv_Fin by exact H. reflexivity. Qed.

Lemma position_spec es : StronglySorted lt es -> forall x, In x es -> exists i, position es x = Some i /\ nth_error es i = Some x.
Proof.
  induction es as [|a es IH]; intros Hs x Hx; [destruct Hx|]. inversion Hs as [|? ? H1 H2]; subst. cbn [position]. destruct (Nat.eqb_spec a x) as [->|N]; [exists 0%nat; auto|].
  destruct Hx as [->|Hx]; [congruence|]. destruct (IH H1 x Hx) as (i & E & Hn). exists (S i). rewrite E. auto.
Qed.

Lemma sorted_nth es : StronglySorted lt es -> forall i j x y, nth_error es i = Some x -> nth_error es j = Some y -> (i < j <-> x < y)%nat.
Proof.
  assert (K : StronglySorted lt es -> forall i j x y, nth_error es i = Some x -> nth_error es j = Some y -> (i < j -> x < y)%nat).
  { induction es as [|a es IH]; intros Hs i j x y Hi Hj Hij; [destruct i; discriminate|]. inversion Hs as [|? ? H1 H2]; subst. destruct j as [|j]; [lia|]. cbn in Hj. destruct i as [|i].
    - injection Hi as <-. rewrite Forall_forall in H2. apply H2. now apply nth_error_In in Hj.
    - apply (IH H1 i j); auto; lia. }
  intros Hs i j x y Hi Hj. split; [now apply (K Hs i j)|]. intros Hxy. destruct (lt_eq_lt_dec i j) as [[H|H]|H]; [exact H| |].
  - subst j. assert (x = y) by congruence. lia.
  - pose proof (K Hs j i y x Hj Hi H). lia.
Qed.

Lemma column_faithful scale c v : describes scale c v -> infer_column scale c = Some v -> (scale = true -> forall l, snd c = Floats l -> varied l) ->
  exists col, encode_column v (snd c) = Some col /\ faithful v (snd c) col.
Proof.
  intros Hd Hi Hv. unfold infer_column in Hi. destruct c as [n c]. cbn [fst snd] in *. destruct c as [l|l|l|k]; [| | |discriminate].
  - destruct (minimal_distance l) as [d|]; [|discriminate]. injection Hi as <-. destruct scale; cbn [encode_column faithful]; [|eauto].
    destruct (varied_std l (Hv eq_refl l eq_refl)) as (m & s & -> & -> & Ps & _). eexists. split; [reflexivity|]. clear -Ps. induction l as [|x l IH]; [constructor|]. cbn [map]. constructor; [|exact IH].
    rewrite encode_Fin by lra. split; [eauto|]. cbn. f_equal. field. lra.
  - injection Hi as <-. cbn [encode_column faithful]. eauto.
  - injection Hi as <-. cbn [encode_column faithful]. pose proof (sset_of_sorted l) as Hs.
    assert (P : forall x, In x l -> exists i, position (sset_of l) x = Some i /\ nth_error (sset_of l) i = Some x) by (intros x Hx; apply position_spec; [exact Hs|now apply sset_of_In]).
    set (code := fun x => match position (sset_of l) x with Some i => i | None => 0%nat end).
    exists (map (fun x => Fin (INR (code x))) l). split.
    + apply mapM_Forall2. assert (Hin : forall x, In x l -> exists i, position (sset_of l) x = Some i) by (intros x Hx; destruct (P x Hx) as (i & E & _); eauto).
      assert (Q : forall l', (forall x, In x l' -> exists i, position (sset_of l) x = Some i) ->
        Forall2 (fun a b => option_map (fun i => Fin (INR i)) (position (sset_of l) a) = Some b) l' (map (fun x => Fin (INR (code x))) l')); [|now apply Q].
      induction l' as [|x l' IH]; intros Hl'; [constructor|]. cbn [map]. constructor; [|apply IH; intros y Hy; apply Hl'; now right].
      destruct (Hl' x (or_introl eq_refl)) as (i & E). unfold code. rewrite E. reflexivity.
    + exists code. split; [reflexivity|]. split.
      * intros x Hx. destruct (P x Hx) as (i & E & Hn). unfold code. rewrite E. apply nth_error_Some. congruence.
      * intros x y Hx Hy. destruct (P x Hx) as (i & E & Hn). destruct (P y Hy) as (j & E' & Hn'). unfold code. rewrite E, E'. now apply (sorted_nth (sset_of l)).
Qed.

Lemma get_column_In data c : NoDup (map fst data) -> In c data -> get_column data (fst c) = Some (snd c).
Proof.
  unfold get_column. induction data as [|a data IH]; intros Nd Hc; [destruct Hc|]. inversion Nd as [|? ? N1 N2]; subst. cbn [find]. destruct Hc as [->|Hc]; [now rewrite Nat.eqb_refl|].
  destruct (Nat.eqb_spec (fst a) (fst c)) as [E|_]; [exfalso; apply N1; rewrite E; now apply in_map|now apply IH].
Qed.

Lemma describes_name scale c v : describes scale c v -> jname v = fst c.
Proof. unfold describes. destruct (snd c), v; cbn; intuition. Qed.

Theorem C70_preprocess_partial scale data : NoDup (map fst data) -> (forall c, In c data -> supported c) ->
  (scale = true -> forall c l, In c data -> snd c = Floats l -> varied l) -> preprocesses scale data.
Proof.
  intros Nd Hs Hv. destruct (C69_infer scale data Hs) as (vs & E & F). exists vs. split; [exact E|]. intros vs' HP.
  unfold infer_variables in E. apply mapM_Forall2 in E.
  assert (K : forall v, In v vs -> exists c, In c data /\ describes scale c v /\ infer_column scale c = Some v).
  { clear -E F. induction F as [|c v data vs Hd _ IH]; intros v' Hv'; [destruct Hv'|]. inversion E; subst. destruct Hv' as [->|Hv']; [exists c; split; [now left|auto]|].
    destruct (IH ltac:(assumption) v' Hv') as (c' & G1 & G2). exists c'. split; [now right|auto]. }
  assert (Hl : length vs' = length data) by (rewrite <- (Permutation_length HP); clear -F; induction F; cbn; congruence).
  assert (K' : forall v, In v vs' -> exists c, In c data /\ describes scale c v /\ infer_column scale c = Some v) by (intros v Hv'; apply K; now apply (Permutation_in _ (Permutation_sym HP))).
  assert (C : exists cols, mapM (fun v => match get_column data (jname v) with None => None | Some c => encode_column v c end) vs' = Some cols /\
    Forall2 (fun v col => exists c, In c data /\ fst c = jname v /\ faithful v (snd c) col) vs' cols).
  { clear HP Hl. induction vs' as [|v vs' IH]; [exists []; split; [reflexivity|constructor]|]. destruct IH as (cols & E1 & F1); [intros; apply K'; now right|].
    destruct (K' v (or_introl eq_refl)) as (c & Hc & Dc & Ic). destruct (column_faithful scale c v Dc Ic) as (col & E2 & F2); [intros Hsc l; now apply Hv|].
    exists (col :: cols). split; [|constructor; [|exact F1]; exists c; split; [exact Hc|]; split; [symmetry; now apply (describes_name scale)|exact F2]].
    apply mapM_Forall2. apply mapM_Forall2 in E1. constructor; [|exact E1]. rewrite (describes_name scale c v Dc), (get_column_In data c Nd Hc). exact E2. }
  destruct C as (cols & E1 & F1). exists cols. split; [|exact F1]. unfold preprocess. rewrite E1.
  assert (Hlc : length cols = length data) by (rewrite <- Hl; clear -F1; induction F1; cbn; congruence). rewrite Hlc, Nat.leb_refl, Nat.sub_diag. cbn. now rewrite app_nil_r.
Qed.

(** The result has the shape of the table, whichever of its columns there are variables for; the places left over hold zeros. *)
Definition height (c : series) : nat := match c with Floats l => length l | Ints l => length l | Objects l => length l | OtherType n => n end.
Lemma encode_column_height v c col : encode_column v c = Some col -> length col = height c.
Proof.
  unfold encode_column. destruct v as [[|] ? ? ? ?| |], c; intros E; try discriminate; try (injection E as <-; apply map_length).
  cbn [height]. apply mapM_Forall2 in E. symmetry. induction E; cbn; congruence.
Qed.
Theorem C70_shape vs data n cols : (forall c, In c data -> height (snd c) = n) -> preprocess vs data = Some cols ->
  length cols = length data /\ (forall col, In col cols -> length col = n) /\
  forall i col, (length vs <= i)%nat -> nth_error cols i = Some col -> Forall (fun x => x = Fin 0) col.
Proof.
  intros Hn. unfold preprocess. destruct (mapM _ vs) as [cs|] eqn:E; [|discriminate]. destruct (Nat.leb_spec (length cs) (length data)) as [L|L]; [|discriminate]. intros X. injection X as <-.
  apply mapM_Forall2 in E. assert (HL : length cs = length vs) by (symmetry; clear -E; induction E; cbn; congruence). split; [rewrite app_length, repeat_length; lia|]. split.
  - intros col Hc. apply in_app_or in Hc as [Hc|Hc].
    + clear -E Hn Hc. induction E as [|v col' vs cs H E IH]; [destruct Hc|]. destruct Hc as [->|Hc]; [|auto]. unfold get_column in H. destruct (find _ data) as [c|] eqn:F; [|discriminate]. apply find_some in F as [F _].
      apply encode_column_height in H. now rewrite H, (Hn _ F).
    + assert (N : data <> []) by (intros ->; destruct Hc). apply repeat_spec in Hc. subst col. rewrite repeat_length. destruct data as [|[k c] data]; [congruence|]. rewrite <- (Hn (k, c)) by now left. destruct c; reflexivity.
  - intros i col Hi Hc. rewrite <- HL in Hi. rewrite nth_error_app2 in Hc by exact Hi. apply nth_error_In, repeat_spec in Hc. subst col. apply Forall_forall. intros x Hx. now apply repeat_spec in Hx.
Qed.

(** A scaled column with two different values has average zero and deviation one after encoding. *)
Theorem C70_standardised_partial l : varied l -> exists col, map (fun x => encode (mean l) (std l) (Fin x)) l = map Fin col /\ average col 0 /\ deviation col 1.
Proof.
  intros Hv. destruct (varied_std l Hv) as (m & s & -> & -> & Ps & A & V). exists (map (fun x => (x - m) / s) l). split.
  { rewrite map_map. apply map_ext. intros x. apply encode_Fin. lra. }
  assert (A0 : average (map (fun x => (x - m) / s) l) 0).
  { unfold average in *. rewrite Rmult_0_l. rewrite (Rsum_ext _ (fun x => / s * x + (- m / s))) by (intros; field; lra). rewrite Rsum_plus, Rsum_scal, Rsum_const, map_id, <- A. field. lra. }
  split; [exact A0|]. split; [lra|]. exists 0. split; [exact A0|]. rewrite map_length, map_map. rewrite (Rsum_ext _ (fun x => / (s * s) * ((x - m) * (x - m)))) by (intros; field; lra).
  rewrite Rsum_scal, <- V. field. lra.
Qed.

(** ** A constant column that is to be scaled becomes NaN. *)
Theorem C70_preprocess_refuted : ~ C70_full.
Proof.
  intros H. destruct (H true [(0%nat, Floats [1; 1])]) as (vs & E & K).
  - repeat constructor; intros [].
  - intros c [<-|[]]. cbn. discriminate.
  - destruct (K vs (Permutation_refl vs)) as (cols & E2 & F). unfold infer_variables, infer_column, minimal_distance in E. cbn [mapM snd fst] in E.
    assert (U : map fst (np_unique [1; 1]) = [1]) by (cbn; rb; try lra; reflexivity). rewrite U in E. cbn [length Nat.eqb] in E. injection E as <-.
    inversion F as [|v col vs' cols' (c & Hc & _ & Hf) F']; subst. destruct Hc as [<-|[]]. cbn [snd faithful] in Hf. inversion Hf as [|x y l' col' [(r & ->) Hd] _]; subst.
    assert (M : mean [1; 1] = Fin 1) by (cbn; f_equal; field).
    assert (S0 : std [1; 1] = Fin 0).
    { unfold std. rewrite M. cbn [length Nat.eqb]. f_equal. rewrite <- sqrt_0. f_equal. cbn. field. }
    unfold preprocess in E2. cbn [mapM jname get_column find fst snd Nat.eqb encode_column] in E2. rewrite S0 in E2. replace ((1 + (1 + 0)) / (1 + 1)) with 1 in E2 by field. unfold encode in E2. cbn [map nsub nopp nadd] in E2.
    replace (1 + - (1)) with 0 in E2 by ring.
    assert (N : ndiv (Fin 0) (Fin 0) = NaN). { unfold ndiv. destruct (Req_EM_T 0 0); [|lra]. unfold nscale_inf. destruct (total_order_T 0 0) as [[H0|H0]|H0]; try lra; reflexivity. }
    rewrite N in E2. cbn in E2. injection E2 as E2 _. discriminate.
Qed.

(** ** Cases that meet the hypotheses *)
Definition table : frame := [(2%nat, Floats [1; 4; 2]); (0%nat, Objects [7; 5; 7]%nat); (1%nat, Ints [3; 3; 3]%Z)].

Example C70_shape_case : exists cols, preprocess [JInt 1 (Fin 3) (Fin 0)] table = Some cols /\ length cols = 3%nat /\ nth_error cols 2 = Some [Fin 0; Fin 0; Fin 0].
Proof. eexists. split; [reflexivity|]. split; reflexivity. Qed.

Example table_case : exists d, minimal_distance [1; 4; 2] = Some d /\ smallest_gap [1; 4; 2] d /\ d = 1.
Proof.
  destruct (C69_minimal_distance [1; 4; 2]) as (d & E & H & _); [discriminate|]. exists d. split; [exact E|]. split; [exact H|].
  unfold minimal_distance in E. assert (U : map fst (np_unique [1; 4; 2]) = [1; 2; 4]) by (cbn; repeat (rb; try lra; cbn); try lra; reflexivity). rewrite U in E. cbn in E. injection E as <-.
  rewrite Rmin_left; lra.
Qed.

Example table_preprocesses : preprocesses true table.
Proof.
  apply C70_preprocess_partial.
  - repeat constructor; cbn; intuition lia.
  - intros c [<-|[<-|[<-|[]]]]; cbn; auto. discriminate.
  - intros _ c l [<-|[<-|[<-|[]]]]; cbn; intros E; try discriminate. injection E as <-. exists 1, 4. cbn. repeat split; auto. lra.
Qed.

Example symbols_case : encode_column (JSym 0 (sset_of [7; 5; 7]%nat)) (Objects [7; 5; 7]%nat) = Some [Fin 1; Fin 0; Fin 1].
Proof. reflexivity. Qed.

Example standardised_case : varied [1; 4; 2].
Proof. exists 1, 4. cbn. repeat split; auto. lra. Qed.

Print Assumptions C69_minimal_distance.
Print Assumptions C69_infer.
Print Assumptions C69_refused.
Print Assumptions C70_preprocess_partial.
Print Assumptions C70_shape.
Print Assumptions C70_standardised_partial.
Print Assumptions C70_preprocess_refuted.
