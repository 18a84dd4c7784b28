(** * Property C85: drawing counts from the rows of a sparse matrix of probabilities *)
From Coq Require Import List Arith Bool Lia Reals Lra.
From Verif Require Import Num Interval SparseSample.
Import ListNotations.
Local Open Scope R_scope.
Local Set Bullet Behavior "Strict Subproofs".

(** ** Specification *)

(** What is stored in row [i]: pairs of column and value. *)
Definition stored {A} (m : csr A) (i : nat) : list (nat * A) :=
  let a := nth i (s_indptr m) 0%nat in
  let b := nth (S i) (s_indptr m) 0%nat in
  combine (firstn (b - a) (skipn a (s_indices m))) (firstn (b - a) (skipn a (s_data m))).
Definition columns_of {A} (m : csr A) (i : nat) : list nat := map fst (stored m i).
Definition values_of {A} (m : csr A) (i : nat) : list A := map snd (stored m i).

(** The pointers of the rows ascend from zero to the number of stored values. *)
Definition csr_ok {A} (m : csr A) : Prop :=
  length (s_indptr m) = S (s_rows m) /\ nth 0 (s_indptr m) 0%nat = 0%nat /\
  (forall i, (i < s_rows m)%nat -> (nth i (s_indptr m) 0 <= nth (S i) (s_indptr m) 0)%nat) /\
  nth (s_rows m) (s_indptr m) 0%nat = length (s_data m) /\ length (s_indices m) = length (s_data m).

(** The multinomial distribution. *)
Definition multinomial_pmf (n : nat) (p : list R) (c : list nat) : R :=
  if ((length c =? length p) && (list_sum c =? n))%nat
  then INR (fact n) / Rprod (map (fun k => INR (fact k)) c) * Rprod (map (fun pk => fst pk ^ snd pk) (combine p c))
  else 0.

Definition prob {A} (P : option A -> bool) (d : rand A) : R := Rsum (map (fun xw => if P (fst xw) then snd xw else 0) d).

(** The event that the rows of the result hold the counts [cs]. *)
Definition has_rows (cs : list (list nat)) (r : option (csr nat)) : bool :=
  match r with
  | Some m => if list_eq_dec (list_eq_dec Nat.eq_dec) (map (values_of m) (seq 0 (s_rows m))) cs then true else false
  | None => false
  end.

(** ** Random outcomes *)

Lemma Rsum_app a b : Rsum (a ++ b) = Rsum a + Rsum b.
Proof. unfold Rsum. induction a as [|x a IH]; cbn; [lra|]. rewrite IH. lra. Qed.
Lemma prob_app {A} P (d e : rand A) : prob P (d ++ e) = prob P d + prob P e.
Proof. unfold prob. now rewrite map_app, Rsum_app. Qed.
Lemma prob_nil {A} (P : option A -> bool) : prob P [] = 0.
Proof. reflexivity. Qed.
Lemma prob_cons {A} (P : option A -> bool) x w d : prob P ((x, w) :: d) = (if P x then w else 0) + prob P d.
Proof. reflexivity. Qed.
Lemma prob_scale {A} P (d : rand A) w : prob P (map (fun yv => (fst yv, w * snd yv)) d) = w * prob P d.
Proof.
  induction d as [|[y v] d IH]; [cbn [map]; rewrite !prob_nil; ring|]. cbn [map fst snd]. rewrite !prob_cons, IH. destruct (P y); ring.
Qed.
Lemma prob_ext {A} (P Q : option A -> bool) d : (forall x w, In (x, w) d -> P x = Q x) -> prob P d = prob Q d.
Proof.
  intros H. induction d as [|[y v] d IH]; [reflexivity|]. rewrite !prob_cons, (H y v) by now left. rewrite IH; [reflexivity|].
  intros x w Hx. apply (H x w). now right.
Qed.
Lemma prob_none {A} (P : option A -> bool) d : (forall x w, In (x, w) d -> P x = false) -> prob P d = 0.
Proof.
  intros H. induction d as [|[y v] d IH]; [reflexivity|]. rewrite !prob_cons, (H y v) by now left. rewrite IH; [ring|].
  intros x w Hx. apply (H x w). now right.
Qed.
Lemma prob_ret {A} P (x : option A) : prob P (ret x) = if P x then 1 else 0.
Proof. unfold ret. rewrite prob_cons, prob_nil. ring. Qed.

(** Pairs: the first component is found with [p], the second then with [q]. *)
Lemma prob_bind {A B} (P : option B -> bool) (Q : A -> bool) (d : rand A) (f : A -> rand B) q :
  P None = false -> (forall x w, In (Some x, w) d -> prob P (f x) = if Q x then q else 0) ->
  prob P (bind d f) = prob (fun x => match x with Some y => Q y | None => false end) d * q.
Proof.
  intros HN H. unfold bind. induction d as [|[[y|] v] d IH]; cbn [flat_map fst snd].
  - rewrite !prob_nil. ring.
  - rewrite prob_app, prob_scale, prob_cons, (H y v) by now left. rewrite IH by (intros x w Hx; apply (H x w); now right).
    destruct (Q y); ring.
  - rewrite prob_app, !prob_cons, prob_nil, HN, IH by (intros x w Hx; apply (H x w); now right). ring.
Qed.

Lemma bind_in {A B} (d : rand A) (f : A -> rand B) y v : In (y, v) (bind d f) ->
  (exists x w u, In (Some x, w) d /\ In (y, u) (f x) /\ v = w * u) \/ (y = None /\ In (None, v) d).
Proof.
  unfold bind. rewrite in_flat_map. intros ([[x|] w] & H1 & H2); cbn [fst snd] in H2.
  - apply in_map_iff in H2. destruct H2 as ([y' u] & E & H2). cbn in E. injection E as -> <-. left. exists x, w, u. auto.
  - destruct H2 as [E|[]]. injection E as <- <-. right. auto.
Qed.

(** ** numpy's generator *)

Lemma binomial_prob n p k : (k <= n)%nat -> prob (fun x => match x with Some y => Nat.eqb y k | None => false end) (binomial n p) = C n k * p ^ k * (1 - p) ^ (n - k).
Proof.
  intros Hk. unfold binomial.
  assert (G : forall l, NoDup l -> prob (fun x => match x with Some y => Nat.eqb y k | None => false end)
      (map (fun k => (Some k, C n k * p ^ k * (1 - p) ^ (n - k))) l) = if in_dec Nat.eq_dec k l then C n k * p ^ k * (1 - p) ^ (n - k) else 0).
  { induction 1 as [|a l Ha Hl IH]; [reflexivity|]. cbn [map]. rewrite prob_cons, IH.
    destruct (in_dec Nat.eq_dec k (a :: l)) as [H|H], (in_dec Nat.eq_dec k l) as [H'|H'], (Nat.eqb_spec a k) as [->|E]; try lra; cbn in H; exfalso; tauto. }
  rewrite G by apply seq_NoDup. destruct (in_dec Nat.eq_dec k (seq 0 (S n))) as [_|H]; [reflexivity|]. exfalso. apply H, in_seq. lia.
Qed.

Lemma binomial_in n p x w : In (x, w) (binomial n p) -> exists k, x = Some k /\ (k <= n)%nat.
Proof.
  unfold binomial. rewrite in_map_iff. intros (k & E & H). apply in_seq in H. exists k. injection E as <- _. split; [reflexivity|lia].
Qed.

Lemma list_sum_repeat n : list_sum (repeat 0%nat n) = 0%nat.
Proof. induction n; cbn; auto. Qed.

Lemma loop_in : forall p dn rest x w, In (x, w) (multinomial_loop dn rest p) ->
  exists c, x = Some c /\ length c = length p /\ (p <> [] -> list_sum c = dn).
Proof.
  induction p as [|q p IH]; intros dn rest x w H.
  - cbn in H. destruct H as [E|[]]. injection E as <- _. exists []. split; [reflexivity|]. split; [reflexivity|]. congruence.
  - destruct p as [|q' p].
    + cbn in H. destruct H as [E|[]]. injection E as <- _. exists [dn]. split; [reflexivity|]. split; [reflexivity|]. cbn. lia.
    + set (p' := q' :: p) in *. change (multinomial_loop dn rest (q :: p')) with (bind (binomial dn (q / rest)) (fun k =>
        if (dn - k =? 0)%nat then ret (Some (k :: repeat 0%nat (length p'))) else bind (multinomial_loop (dn - k) (rest - q) p') (fun c => ret (Some (k :: c))))) in H.
      apply bind_in in H. destruct H as [(k & w1 & u & H1 & H2 & _)|(_ & H1)].
      * destruct (binomial_in _ _ _ _ H1) as (k' & E & Hk). injection E as <-. destruct (Nat.eqb_spec (dn - k) 0) as [E|E].
        -- destruct H2 as [E2|[]]. injection E2 as <- _. eexists. split; [reflexivity|]. split; [cbn [length]; now rewrite repeat_length|].
           intros _. change (k + list_sum (repeat 0%nat (length p')) = dn)%nat. rewrite list_sum_repeat. lia.
        -- apply bind_in in H2. destruct H2 as [(c & w2 & u2 & H3 & H4 & _)|(_ & H3)].
           ++ destruct (IH _ _ _ _ H3) as (c' & Ec & L1 & L2). injection Ec as <-. destruct H4 as [E4|[]]. injection E4 as <- _.
              eexists. split; [reflexivity|]. split; [cbn [length]; now rewrite L1|]. intros _. change (k + list_sum c = dn)%nat. rewrite L2 by (unfold p'; discriminate). lia.
           ++ destruct (IH _ _ _ _ H3) as (c' & Ec & _). discriminate.
      * destruct (binomial_in _ _ _ _ H1) as (k' & E & _). discriminate.
Qed.

Definition counts_are (c : list nat) (x : option (list nat)) : bool :=
  match x with Some y => if list_eq_dec Nat.eq_dec y c then true else false | None => false end.
Definition weight (p : list R) (c : list nat) : R :=
  Rprod (map (fun pk => fst pk ^ snd pk) (combine p c)) / Rprod (map (fun k => INR (fact k)) c).

Lemma facts_pos c : 0 < Rprod (map (fun k => INR (fact k)) c).
Proof. unfold Rprod. induction c as [|k c IH]; cbn [map fold_right]; [lra|]. apply Rmult_lt_0_compat; [apply INR_fact_lt_0|exact IH]. Qed.

Lemma weight_cons q p k c : weight (q :: p) (k :: c) = q ^ k / INR (fact k) * weight p c.
Proof.
  unfold weight. cbn [combine map Rprod fold_right fst snd]. pose proof (facts_pos c). pose proof (INR_fact_lt_0 k). unfold Rprod in *. field. split; lra.
Qed.

Lemma weight_zero : forall p, weight p (repeat 0%nat (length p)) = 1.
Proof.
  induction p as [|q p IH]; [unfold weight; cbn; lra|]. cbn [length repeat]. rewrite weight_cons, IH. cbn. lra.
Qed.

Lemma sum_zero : forall c, list_sum c = 0%nat -> c = repeat 0%nat (length c).
Proof.
  induction c as [|a c IH]; intros H; [reflexivity|]. change (a + list_sum c = 0)%nat in H. destruct a; [|lia]. cbn [length repeat]. f_equal. apply IH. exact H.
Qed.

Lemma weight_null p c : length c = length p -> (0 < list_sum c)%nat -> Forall (fun q => q = 0) p -> weight p c = 0.
Proof.
  revert c. induction p as [|q p IH]; intros [|k c] HL HS HP; try discriminate; [cbn in HS; lia|].
  rewrite weight_cons. inversion HP as [|? ? -> HP']. destruct k as [|k].
  - rewrite IH; [ring|cbn in HL; lia|cbn in HS; exact HS|exact HP'].
  - cbn [pow]. unfold Rdiv. ring.
Qed.

Lemma null_sum p : Forall (fun q => 0 <= q) p -> Rsum p = 0 -> Forall (fun q => q = 0) p.
Proof.
  induction 1 as [|q p Hq Hp IH]; intros H; [constructor|]. assert (0 <= Rsum p).
  { clear - Hp. unfold Rsum. induction Hp; cbn; lra. }
  change (q + Rsum p = 0) in H. constructor; [lra|]. apply IH. lra.
Qed.

Lemma loop_prob : forall p c dn, p <> [] -> Forall (fun q => 0 <= q) p -> length c = length p -> list_sum c = dn ->
  prob (counts_are c) (multinomial_loop dn (Rsum p) p) * Rsum p ^ dn = INR (fact dn) * weight p c.
Proof.
  induction p as [|q p IH]; intros c dn Hne Hp HL HS; [congruence|]. destruct c as [|k c]; [discriminate|]. destruct p as [|q' p].
  - destruct c; [|discriminate]. cbn in HS. rewrite Nat.add_0_r in HS. subst k. cbn [multinomial_loop]. rewrite prob_ret. unfold counts_are.
    destruct (list_eq_dec Nat.eq_dec [dn] [dn]); [|congruence]. rewrite weight_cons. unfold weight. cbn [combine map Rprod fold_right Rsum].
    pose proof (INR_fact_lt_0 dn). rewrite Rplus_0_r. field. lra.
  - set (p' := q' :: p) in *. change (multinomial_loop dn (Rsum (q :: p')) (q :: p')) with (bind (binomial dn (q / Rsum (q :: p'))) (fun k =>
        if (dn - k =? 0)%nat then ret (Some (k :: repeat 0%nat (length p'))) else bind (multinomial_loop (dn - k) (Rsum (q :: p') - q) p') (fun c => ret (Some (k :: c))))).
    set (T := Rsum (q :: p')). assert (ET : T - q = Rsum p') by (unfold T; change (Rsum (q :: p')) with (q + Rsum p'); ring).
    inversion Hp as [|? ? Hq Hp']; subst. cbn [length] in HL. apply Nat.succ_inj in HL. change (list_sum (k :: c)) with (k + list_sum c)%nat in *. set (dn := (k + list_sum c)%nat).
    rewrite ET. rewrite (prob_bind (counts_are (k :: c)) (fun x => Nat.eqb x k) _ _
       (if (list_sum c =? 0)%nat then 1 else prob (counts_are c) (multinomial_loop (list_sum c) (Rsum p') p'))).
    + rewrite binomial_prob by (unfold dn; lia). replace (dn - k)%nat with (list_sum c) by (unfold dn; lia).
      assert (0 <= Rsum p'). { clear - Hp'. unfold Rsum. induction Hp'; cbn; lra. }
      destruct (Req_dec T 0) as [E0|E0].
      * assert (q = 0 /\ Rsum p' = 0) as [-> E1] by (unfold T in E0; change (q + Rsum p' = 0) in E0; lra).
        rewrite E0. destruct dn as [|dn'] eqn:Ed.
        -- assert (k = 0 /\ list_sum c = 0)%nat as [-> Ec] by (unfold dn in Ed; lia). rewrite Ec. rewrite weight_cons. replace (weight p' c) with 1 by (rewrite (sum_zero c Ec), HL; symmetry; apply weight_zero). unfold C. cbn. lra.
        -- rewrite weight_null; [cbn [pow]; ring|cbn; now rewrite HL|change (0 < dn)%nat; lia|]. constructor; [reflexivity|]. now apply null_sum.
      * assert (E1 : 1 - q / T = Rsum p' / T) by (rewrite <- ET; field; exact E0). rewrite E1. rewrite weight_cons.
        assert (EP : T ^ dn = T ^ k * T ^ list_sum c) by (unfold dn; apply pow_add). rewrite EP. unfold Rdiv at 1 2. rewrite !Rpow_mult_distr, !pow_inv.
        pose proof (pow_nonzero T k E0) as N1. pose proof (pow_nonzero T (list_sum c) E0) as N2.
        assert (EX : (if (list_sum c =? 0)%nat then 1 else prob (counts_are c) (multinomial_loop (list_sum c) (Rsum p') p')) * Rsum p' ^ list_sum c = INR (fact (list_sum c)) * weight p' c).
        { destruct (Nat.eqb_spec (list_sum c) 0) as [Ec|Ec].
          - rewrite Ec. rewrite (sum_zero c Ec), HL, weight_zero. cbn. lra.
          - apply IH; auto. unfold p'. discriminate. }
        transitivity (C dn k * q ^ k * ((if (list_sum c =? 0)%nat then 1 else prob (counts_are c) (multinomial_loop (list_sum c) (Rsum p') p')) * Rsum p' ^ list_sum c)); [field; auto|].
        rewrite EX. unfold C. replace (dn - k)%nat with (list_sum c) by (unfold dn; lia). pose proof (INR_fact_neq_0 k). pose proof (INR_fact_neq_0 (list_sum c)). field. auto.
    + reflexivity.
    + intros x w Hx. destruct (binomial_in _ _ _ _ Hx) as (k' & E & Hk). injection E as <-. destruct (Nat.eqb_spec x k) as [->|En].
      * replace (dn - k)%nat with (list_sum c) by (unfold dn; lia). destruct (Nat.eqb_spec (list_sum c) 0) as [Ec|Ec].
        -- rewrite prob_ret. unfold counts_are. rewrite (sum_zero c Ec), HL. destruct (list_eq_dec Nat.eq_dec _ _); [reflexivity|congruence].
        -- rewrite (prob_bind _ (fun y => if list_eq_dec Nat.eq_dec y c then true else false) _ _ 1); [rewrite Rmult_1_r; apply prob_ext; intros [y|] ? _; reflexivity|reflexivity|].
           intros y v _. rewrite prob_ret. unfold counts_are. destruct (list_eq_dec Nat.eq_dec (k :: y) (k :: c)), (list_eq_dec Nat.eq_dec y c); congruence.
      * apply prob_none. intros y v Hy. destruct (Nat.eqb_spec (dn - x) 0) as [Ec|Ec].
        -- destruct Hy as [E|[]]. injection E as <- _. unfold counts_are. destruct (list_eq_dec _ _ _); congruence.
        -- apply bind_in in Hy. destruct Hy as [(c' & w2 & u2 & _ & H4 & _)|(-> & _)]; [|reflexivity].
           destruct H4 as [E|[]]. injection E as <- _. unfold counts_are. destruct (list_eq_dec _ _ _); congruence.
Qed.

(** A row of probabilities. *)
Definition distribution (p : list R) : Prop := p <> [] /\ Forall (fun q => 0 <= q) p /\ Rsum p = 1.

Lemma Rsum_nonneg p : Forall (fun q => 0 <= q) p -> 0 <= Rsum p.
Proof. unfold Rsum. induction 1; cbn; lra. Qed.

Lemma removelast_le p : Forall (fun q => 0 <= q) p -> Rsum (removelast p) <= Rsum p.
Proof.
  induction 1 as [|q p Hq Hp IH]; [cbn; lra|]. destruct p as [|q' p]; [cbn; lra|].
  change (removelast (q :: q' :: p)) with (q :: removelast (q' :: p)). change (q + Rsum (removelast (q' :: p)) <= q + Rsum (q' :: p)). lra.
Qed.

Lemma member_le p q : Forall (fun q => 0 <= q) p -> In q p -> q <= Rsum p.
Proof.
  induction 1 as [|a p Ha Hp IH]; intros []; change (Rsum (a :: p)) with (a + Rsum p); [subst; pose proof (Rsum_nonneg p Hp); lra|].
  pose proof (IH H). lra.
Qed.

Lemma multinomial_ok n p : distribution p -> np_multinomial n p = multinomial_loop n (Rsum p) p.
Proof.
  intros (H1 & H2 & H3). unfold np_multinomial. rewrite H3. replace (forallb _ p) with true.
  - pose proof (removelast_le p H2). assert (0 < / 10 ^ 12) by (apply Rinv_0_lt_compat, pow_lt; lra). unfold Rleb. destruct (Rle_dec _ _); [reflexivity|lra].
  - symmetry. apply forallb_forall. intros q Hq. pose proof (member_le p q H2 Hq). rewrite Forall_forall in H2. specialize (H2 q Hq). unfold Rleb.
    destruct (Rle_dec 0 q), (Rle_dec q 1); auto; lra.
Qed.

Lemma multinomial_law n p c : distribution p -> prob (counts_are c) (np_multinomial n p) = multinomial_pmf n p c.
Proof.
  intros Hp. rewrite multinomial_ok by exact Hp. destruct Hp as (H1 & H2 & H3). unfold multinomial_pmf.
  destruct (Nat.eqb_spec (length c) (length p)) as [EL|EL]; [destruct (Nat.eqb_spec (list_sum c) n) as [ES|ES]|]; cbn [andb].
  - pose proof (loop_prob p c n H1 H2 EL ES) as X. rewrite H3, pow1, Rmult_1_r in X. rewrite H3, X. unfold weight. pose proof (facts_pos c). field. lra.
  - apply prob_none. intros x w Hx. destruct (loop_in _ _ _ _ _ Hx) as (c' & -> & L1 & L2). unfold counts_are. destruct (list_eq_dec _ _ _); [subst; tauto|reflexivity].
  - apply prob_none. intros x w Hx. destruct (loop_in _ _ _ _ _ Hx) as (c' & -> & L1 & L2). unfold counts_are. destruct (list_eq_dec _ _ _); [subst; tauto|reflexivity].
Qed.

(** ** All rows *)

Definition rows_are (cs : list (list nat)) (x : option (list (list nat))) : bool :=
  match x with Some y => if list_eq_dec (list_eq_dec Nat.eq_dec) y cs then true else false | None => false end.

Fixpoint joint_pmf (amount : list nat) (rows : list (list R)) (cs : list (list nat)) : R :=
  match amount, rows, cs with
  | a :: amount', r :: rows', c :: cs' => multinomial_pmf a r c * joint_pmf amount' rows' cs'
  | [], [], [] => 1
  | _, _, _ => 0
  end.

Lemma draws_law : forall rows amount cs, length amount = length rows -> Forall distribution rows ->
  prob (rows_are cs) (draws amount rows) = joint_pmf amount rows cs.
Proof.
  induction rows as [|r rows IH]; intros [|a amount] cs HL HD; try discriminate.
  - cbn [draws]. rewrite prob_ret. destruct cs; reflexivity.
  - inversion HD as [|? ? Hr Hrs]; subst. cbn [draws]. destruct cs as [|c cs].
    + apply prob_none. intros x w H. apply bind_in in H. destruct H as [(c' & ? & ? & _ & H & _)|(-> & _)]; [|reflexivity].
      apply bind_in in H. destruct H as [(cs' & ? & ? & _ & H & _)|(-> & _)]; [|reflexivity]. destruct H as [E|[]]. injection E as <- _. reflexivity.
    + cbn [joint_pmf]. rewrite <- (multinomial_law a r c Hr), <- (IH amount cs) by (cbn in HL; auto; lia).
      rewrite (prob_bind (rows_are (c :: cs)) (fun y => if list_eq_dec Nat.eq_dec y c then true else false) _ _ (prob (rows_are cs) (draws amount rows))).
      * reflexivity.
      * reflexivity.
      * intros c' w _. destruct (list_eq_dec Nat.eq_dec c' c) as [->|En].
        -- rewrite (prob_bind _ (fun y => if list_eq_dec (list_eq_dec Nat.eq_dec) y cs then true else false) _ _ 1); [rewrite Rmult_1_r; apply prob_ext; intros [y|] ? _; reflexivity|reflexivity|].
           intros y v _. rewrite prob_ret. unfold rows_are.
           destruct (list_eq_dec (list_eq_dec Nat.eq_dec) (c :: y) (c :: cs)), (list_eq_dec (list_eq_dec Nat.eq_dec) y cs); congruence.
        -- apply prob_none. intros x v H. apply bind_in in H. destruct H as [(cs' & ? & ? & _ & H & _)|(-> & _)]; [|reflexivity].
           destruct H as [E|[]]. injection E as <- _. unfold rows_are. destruct (list_eq_dec _ _ _); congruence.
Qed.

Lemma draws_in : forall rows amount x w, (length amount <= length rows)%nat -> Forall distribution rows -> In (x, w) (draws amount rows) ->
  exists cs, x = Some cs /\ Forall2 (fun c (r : list R) => length c = length r) cs (firstn (length amount) rows) /\ Forall2 (fun c a => list_sum c = a) cs amount.
Proof.
  induction rows as [|r rows IH]; intros [|a amount] x w HL HD H; cbn in HL; try lia.
  - cbn in H. destruct H as [E|[]]. injection E as <- _. exists []. repeat constructor.
  - cbn in H. destruct H as [E|[]]. injection E as <- _. exists []. repeat constructor.
  - inversion HD as [|? ? Hr Hrs]; subst. cbn [draws] in H. rewrite multinomial_ok in H by exact Hr. apply bind_in in H.
    destruct H as [(c & ? & ? & H1 & H & _)|(_ & H1)]; destruct (loop_in _ _ _ _ _ H1) as (c' & Ec & L1 & L2); [|discriminate]. injection Ec as <-.
    apply bind_in in H. destruct H as [(cs & ? & ? & H2 & H & _)|(_ & H2)]; destruct (IH amount _ _ ltac:(lia) Hrs H2) as (cs' & Ecs & F1 & F2); [|discriminate]. injection Ecs as <-.
    destruct H as [E|[]]. injection E as <- _. exists (c :: cs). split; [reflexivity|]. destruct Hr as (Hne & _). cbn [length firstn].
    split; constructor; auto.
Qed.

(** ** Sparse matrices *)

Fixpoint ascending (a : nat) (ptrs : list nat) (n : nat) : Prop :=
  match ptrs with [] => a = n | b :: ptrs' => (a <= b)%nat /\ ascending b ptrs' n end.

Lemma ascending_le : forall ptrs a n, ascending a ptrs n -> (a <= n)%nat.
Proof. induction ptrs as [|b ptrs IH]; cbn; intros a n H; [lia|]. destruct H as [H1 H2]. apply IH in H2. lia. Qed.

Lemma ascending_nth : forall ptrs a n, (forall i, (i < length ptrs)%nat -> (nth i (a :: ptrs) 0 <= nth (S i) (a :: ptrs) 0)%nat) ->
  nth (length ptrs) (a :: ptrs) 0%nat = n -> ascending a ptrs n.
Proof.
  induction ptrs as [|b ptrs IH]; intros a n H1 H2; cbn [ascending]; [exact H2|]. split; [apply (H1 0%nat); cbn; lia|].
  apply IH; [|exact H2]. intros i Hi. apply (H1 (S i)). cbn. lia.
Qed.

Lemma ok_ascending {A} (m : csr A) : csr_ok m -> exists ptrs, s_indptr m = 0%nat :: ptrs /\ length ptrs = s_rows m /\ ascending 0 ptrs (length (s_data m)).
Proof.
  intros (H1 & H2 & H3 & H4 & _). destruct (s_indptr m) as [|a ptrs]; [discriminate|]. cbn in H2. subst a. exists ptrs. cbn in H1. injection H1 as H1.
  split; [reflexivity|]. split; [exact H1|]. apply ascending_nth; rewrite H1; [|exact H4]. intros i Hi. now apply H3.
Qed.

Lemma rows_from_nth {A} (data : list A) : forall ptrs a,
  rows_from a ptrs data = map (fun i => slice data (nth i (a :: ptrs) 0%nat) (nth (S i) (a :: ptrs) 0%nat)) (seq 0 (length ptrs)).
Proof.
  induction ptrs as [|b ptrs IH]; intros a; [reflexivity|]. cbn [rows_from length seq map]. f_equal. rewrite IH, <- seq_shift, map_map. reflexivity.
Qed.

Lemma combine_snd {A B} : forall (l : list A) (l' : list B), length l = length l' -> map snd (combine l l') = l'.
Proof. induction l as [|x l IH]; intros [|y l'] H; try discriminate; [reflexivity|]. cbn. f_equal. apply IH. now injection H. Qed.
Lemma combine_fst {A B} : forall (l : list A) (l' : list B), length l = length l' -> map fst (combine l l') = l.
Proof. induction l as [|x l IH]; intros [|y l'] H; try discriminate; [reflexivity|]. cbn. f_equal. apply IH. now injection H. Qed.

Lemma values_slice {A} (m : csr A) i : length (s_indices m) = length (s_data m) ->
  values_of m i = slice (s_data m) (nth i (s_indptr m) 0%nat) (nth (S i) (s_indptr m) 0%nat) /\
  columns_of m i = slice (s_indices m) (nth i (s_indptr m) 0%nat) (nth (S i) (s_indptr m) 0%nat).
Proof.
  intros H. unfold values_of, columns_of, stored, slice. split; [apply combine_snd|apply combine_fst]; rewrite !firstn_length, !skipn_length, H; reflexivity.
Qed.

Lemma row_datas_values {A} (m : csr A) : csr_ok m -> row_datas m = map (values_of m) (seq 0 (s_rows m)).
Proof.
  intros H. destruct (ok_ascending m H) as (ptrs & E1 & E2 & _). destruct H as (_ & _ & _ & _ & HI). unfold row_datas. rewrite E1. cbn [tl].
  rewrite rows_from_nth, E2. apply map_ext. intros i. destruct (values_slice m i HI) as [-> _]. now rewrite E1.
Qed.

Lemma slice_mid {A} (pre c post : list A) a b : length pre = a -> (b - a)%nat = length c -> slice (pre ++ c ++ post) a b = c.
Proof.
  intros H1 H2. unfold slice. rewrite H2, skipn_app, H1, Nat.sub_diag. rewrite <- H1, skipn_all. cbn. rewrite firstn_app, Nat.sub_diag, firstn_all. cbn. apply app_nil_r.
Qed.

Lemma rebuild_rows {A B} (data : list A) : forall ptrs a cs (pre : list B), ascending a ptrs (length data) -> length pre = a ->
  Forall2 (fun c r => length c = length r) cs (rows_from a ptrs data) ->
  rows_from a ptrs (pre ++ concat cs) = cs /\ length (pre ++ concat cs) = length data.
Proof.
  induction ptrs as [|b ptrs IH]; intros a cs pre HA HP HF; cbn [rows_from] in *.
  - inversion HF; subst. split; [reflexivity|]. cbn in HA. cbn. rewrite app_nil_r. exact HA.
  - inversion HF as [|c r cs' rs Hc Hcs]; subst cs r rs. cbn [ascending] in HA. destruct HA as [A1 A2]. pose proof (ascending_le _ _ _ A2) as A3.
    assert (Lc : length c = (b - a)%nat). { rewrite Hc. unfold slice. rewrite firstn_length, skipn_length. lia. }
    destruct (IH b cs' (pre ++ c) A2) as [I1 I2]; [rewrite app_length; lia|exact Hcs|]. rewrite <- app_assoc in I1, I2. cbn [concat]. split; [|exact I2]. f_equal; [|exact I1].
    apply slice_mid; lia.
Qed.

Lemma rebuild {A} (m : csr A) (cs : list (list nat)) : csr_ok m -> Forall2 (fun c (r : list A) => length c = length r) cs (row_datas m) ->
  exists r, csr_array (concat cs) (s_indices m) (s_indptr m) (s_rows m) (s_cols m) = Some r /\ csr_ok r /\ s_rows r = s_rows m /\ s_cols r = s_cols m /\
    map (values_of r) (seq 0 (s_rows m)) = cs /\ forall i, columns_of r i = columns_of m i.
Proof.
  intros Hok HF. destruct (ok_ascending m Hok) as (ptrs & E1 & E2 & E3). pose proof Hok as (O1 & O2 & O3 & O4 & O5). unfold row_datas in HF. rewrite E1 in HF. cbn [tl] in HF.
  destruct (rebuild_rows (s_data m) ptrs 0 cs [] E3 eq_refl HF) as [R1 R2]. cbn [app] in R1, R2.
  assert (EL : last (s_indptr m) 0%nat = length (s_data m)).
  { rewrite <- O4. rewrite E1. clear - E2. rewrite <- E2. generalize 0%nat at 1 3. clear E2. induction ptrs as [|b ptrs IH]; intros a; [reflexivity|]. cbn [length]. change (last (a :: b :: ptrs) 0%nat) with (last (b :: ptrs) 0%nat). rewrite IH. reflexivity. }
  set (r := mkCsr (s_rows m) (s_cols m) (concat cs) (s_indices m) (s_indptr m)). exists r.
  assert (Er : csr_array (concat cs) (s_indices m) (s_indptr m) (s_rows m) (s_cols m) = Some r).
  { unfold csr_array. rewrite EL, O1, R2, O5, !Nat.eqb_refl, Nat.leb_refl. rewrite E1 at 1. cbn [hd Nat.eqb andb].
    rewrite <- R2 at 1. rewrite firstn_all. rewrite <- O5, firstn_all. reflexivity. }
  assert (Ok' : csr_ok r). { unfold csr_ok, r. cbn. rewrite R2. auto. }
  split; [exact Er|]. split; [exact Ok'|]. split; [reflexivity|]. split; [reflexivity|]. split.
  - change (s_rows m) with (s_rows r). rewrite <- row_datas_values by exact Ok'. unfold row_datas, r. cbn. rewrite E1. exact R1.
  - intros i. destruct (values_slice r i) as [_ ->]; [cbn; congruence|]. destruct (values_slice m i O5) as [_ ->]. reflexivity.
Qed.

(** ** The theorems *)

(** Every result has the shape and the stored positions of the matrix of probabilities, and row [i] sums to the amount [i]. *)
Theorem C85_rows m amount : csr_ok m -> (forall i, (i < s_rows m)%nat -> distribution (values_of m i)) -> length amount = s_rows m -> amount <> [] ->
  forall x w, In (x, w) (sample_sparse m amount) ->
  exists r, x = Some r /\ csr_ok r /\ s_rows r = s_rows m /\ s_cols r = s_cols m /\
    forall i, (i < s_rows m)%nat -> columns_of r i = columns_of m i /\ nth_error amount i = Some (list_sum (values_of r i)).
Proof.
  intros Hok HD HL Hne x w H. assert (HR : Forall distribution (row_datas m)).
  { rewrite row_datas_values by exact Hok. apply Forall_forall. intros r Hr. apply in_map_iff in Hr. destruct Hr as (i & <- & Hi). apply in_seq in Hi. apply HD. lia. }
  assert (LR : length (row_datas m) = s_rows m) by (rewrite row_datas_values, map_length, seq_length by exact Hok; reflexivity).
  unfold sample_sparse in H. apply bind_in in H. destruct H as [(cs & ? & ? & H1 & H & _)|(_ & H1)]; destruct (draws_in (row_datas m) amount _ _ ltac:(lia) HR H1) as (cs' & Ec & F1 & F2); [|discriminate].
  injection Ec as <-. rewrite HL, <- LR, firstn_all in F1. destruct H as [E|[]]. injection E as <- _.
  destruct cs as [|c cs]; [inversion F2; subst; congruence|]. cbn [np_concatenate]. destruct (rebuild m (c :: cs) Hok F1) as (r & E & O & R1 & R2 & R3 & R4).
  exists r. split; [exact E|]. split; [exact O|]. split; [exact R1|]. split; [exact R2|]. intros i Hi. split; [apply R4|].
  assert (N : nth_error (c :: cs) i = Some (values_of r i)). { rewrite <- R3. rewrite nth_error_map. rewrite (nth_error_nth' _ 0%nat) by (rewrite seq_length; exact Hi). rewrite seq_nth by exact Hi. reflexivity. }
  clear - F2 N. revert i N. generalize (values_of r). induction F2 as [|c' a l am Hc F IH]; intros f [|i] N; try discriminate.
  - cbn in N |- *. injection N as ->. now subst.
  - exact (IH (fun j => f (S j)) i N).
Qed.

(** The rows are independent draws from the multinomial distributions of the amounts and the rows of probabilities. *)
Theorem C85_law m amount : csr_ok m -> (forall i, (i < s_rows m)%nat -> distribution (values_of m i)) -> length amount = s_rows m -> amount <> [] ->
  forall cs, prob (has_rows cs) (sample_sparse m amount) =
    if (length cs =? s_rows m)%nat then Rprod (map (fun i => multinomial_pmf (nth i amount 0%nat) (values_of m i) (nth i cs [])) (seq 0 (s_rows m))) else 0.
Proof.
  intros Hok HD HL Hne cs. assert (HR : Forall distribution (row_datas m)).
  { rewrite row_datas_values by exact Hok. apply Forall_forall. intros r Hr. apply in_map_iff in Hr. destruct Hr as (i & <- & Hi). apply in_seq in Hi. apply HD. lia. }
  assert (LR : length (row_datas m) = s_rows m) by (rewrite row_datas_values, map_length, seq_length by exact Hok; reflexivity).
  unfold sample_sparse. rewrite (prob_bind _ (fun y => if list_eq_dec (list_eq_dec Nat.eq_dec) y cs then true else false) _ _ 1).
  - rewrite Rmult_1_r. transitivity (prob (rows_are cs) (draws amount (row_datas m))); [apply prob_ext; intros [y|] ? _; reflexivity|].
    rewrite draws_law by (try lia; exact HR). rewrite row_datas_values by exact Hok. clear - HL. rewrite <- HL. clear HL.
    generalize (values_of m). intros f. revert f cs. induction amount as [|a amount IH]; intros f cs; [destruct cs; reflexivity|].
    cbn [length seq map joint_pmf]. destruct cs as [|c cs]; [reflexivity|]. rewrite <- seq_shift, !map_map. rewrite (IH (fun i => f (S i)) cs). cbn [length Nat.eqb].
    destruct (length cs =? length amount)%nat; [reflexivity|ring].
  - reflexivity.
  - intros y w Hy. destruct (draws_in (row_datas m) amount _ _ ltac:(lia) HR Hy) as (cs' & Ec & F1 & F2). injection Ec as <-. rewrite HL, <- LR, firstn_all in F1.
    rewrite prob_ret. destruct y as [|c y]; [inversion F2; subst; congruence|]. cbn [np_concatenate]. destruct (rebuild m (c :: y) Hok F1) as (r & E & O & R1 & R2 & R3 & R4).
    rewrite E. unfold has_rows. rewrite R1, R3. reflexivity.
Qed.

(** With too few amounts the function always raises: no row is left out silently. *)
Theorem C85_short m amount : csr_ok m -> (forall i, (i < s_rows m)%nat -> distribution (values_of m i)) -> (length amount < s_rows m)%nat ->
  forall x w, In (x, w) (sample_sparse m amount) -> x = None.
Proof.
  intros Hok HD HL x w H. assert (HR : Forall distribution (row_datas m)).
  { rewrite row_datas_values by exact Hok. apply Forall_forall. intros r Hr. apply in_map_iff in Hr. destruct Hr as (i & <- & Hi). apply in_seq in Hi. apply HD. lia. }
  assert (LR : length (row_datas m) = s_rows m) by (rewrite row_datas_values, map_length, seq_length by exact Hok; reflexivity).
  unfold sample_sparse in H. apply bind_in in H. destruct H as [(cs & ? & ? & H1 & H & _)|(-> & _)]; [|reflexivity].
  destruct (draws_in (row_datas m) amount _ _ ltac:(lia) HR H1) as (cs' & Ec & F1 & _). injection Ec as <-. destruct H as [E|[]]. injection E as <- _.
  destruct cs as [|c cs]; [reflexivity|]. cbn [np_concatenate]. unfold csr_array.
  destruct Hok as (O1 & O2 & O3 & O4 & O5). destruct (ok_ascending m (conj O1 (conj O2 (conj O3 (conj O4 O5))))) as (ptrs & E1 & E2 & E3).
  assert (S : (length (concat (c :: cs)) < length (s_data m))%nat).
  { assert (T : forall ptrs a, ascending a ptrs (length (s_data m)) -> (a + length (concat (rows_from a ptrs (s_data m))) = length (s_data m))%nat).
    { clear. induction ptrs as [|b ptrs IH]; cbn [ascending rows_from]; intros a H; [cbn; lia|]. destruct H as [A1 A2]. pose proof (ascending_le _ _ _ A2). specialize (IH b A2).
      cbn [concat]. rewrite app_length. unfold slice at 1. rewrite firstn_length, skipn_length. lia. }
    specialize (T ptrs 0%nat E3). unfold row_datas in *. rewrite E1 in *. cbn [tl] in *. rewrite <- T. cbn [Nat.add].
    assert (G : forall n (rows : list (list R)) (l : list (list nat)), (n < length rows)%nat -> Forall distribution rows -> Forall2 (fun c (r : list R) => length c = length r) l (firstn n rows) -> (length (concat l) < length (concat rows))%nat).
    { clear. induction n as [|n IH]; intros [|r rows] l Hn HD HF; cbn in Hn; try lia; inversion HD as [|? ? Hr Hrs]; subst; cbn [firstn] in HF; inversion HF as [|c ? l' ? Hc Hl]; subst.
      - cbn. rewrite app_length. destruct Hr as (Hne & _). destruct r; [congruence|]. cbn. lia.
      - cbn [concat]. rewrite !app_length, Hc. specialize (IH rows l' ltac:(lia) Hrs Hl). lia. }
    apply (G (length amount) _ _); auto. lia. }
  rewrite O5. replace (length (s_data m) =? length (concat (c :: cs)))%nat with false by (symmetry; apply Nat.eqb_neq; lia). rewrite andb_false_r. reflexivity.
Qed.

(** The matrix of the test: rows (0.1, 0.2, -, 0.7) and (0.4, -, 0.6, -). *)
Definition two_by_four : csr R := mkCsr 2 4 [1 / 10; 2 / 10; 7 / 10; 4 / 10; 6 / 10] [0; 1; 3; 0; 2]%nat [0; 3; 5]%nat.
Example two_by_four_ok : csr_ok two_by_four /\ (forall i, (i < s_rows two_by_four)%nat -> distribution (values_of two_by_four i)) /\
  prob (has_rows [[0; 1; 1]; [2; 1]]%nat) (sample_sparse two_by_four [2; 3]%nat) = (2 * (2 / 10) * (7 / 10)) * (3 * (4 / 10) ^ 2 * (6 / 10)).
Proof.
  assert (O : csr_ok two_by_four). { unfold csr_ok, two_by_four. cbn. repeat split. intros [|[|i]] H; cbn; lia. }
  assert (D : forall i, (i < s_rows two_by_four)%nat -> distribution (values_of two_by_four i)).
  { intros [|[|i]] H; [| |cbn in H; lia]; (split; [discriminate|]; split; [cbn; repeat (apply Forall_cons; [lra|]); apply Forall_nil|unfold Rsum; cbn; lra]). }
  split; [exact O|]. split; [exact D|]. rewrite C85_law by (auto; discriminate). unfold multinomial_pmf, two_by_four, Rprod. cbn. field.
Qed.

Print Assumptions C85_rows.
Print Assumptions C85_law.
Print Assumptions C85_short.
