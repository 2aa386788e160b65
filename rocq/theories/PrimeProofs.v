From Verif Require Import Base PrimeModel PrimeSpec.

(* ---- elementary facts ---- *)
Lemma is_prime_dec p : {is_prime p} + {~ is_prime p}.
Proof.
  destruct (le_lt_dec 2 p) as [H2|H2]; [|right; intros [? _]; lia].
  destruct (forallb (fun d => negb (p mod d =? 0)) (seq 2 (p - 2))) eqn:E.
  - left. split; auto. intros d [k Hk].
    assert (Hd : 1 <= d <= p) by (split; [destruct d; lia|destruct k; nia]).
    destruct (Nat.eq_dec d 1); auto. destruct (Nat.eq_dec d p); auto.
    exfalso. rewrite forallb_forall in E. specialize (E d).
    rewrite in_seq in E. specialize (E ltac:(lia)).
    apply negb_true_iff, Nat.eqb_neq in E. apply E. subst p. apply Nat.mod_mul. lia.
  - right. intros [_ H].
    assert (exists d, In d (seq 2 (p - 2)) /\ p mod d = 0) as (d & Hd & Hm).
    { clear H. induction (seq 2 (p - 2)) as [|d l IH]; simpl in E; [discriminate|].
      apply andb_false_iff in E. destruct E as [E|E].
      - apply negb_false_iff, Nat.eqb_eq in E. exists d. simpl. auto.
      - destruct (IH E) as (d' & ? & ?). exists d'. simpl. auto. }
    rewrite in_seq in Hd. destruct (H d) as [|]; try lia.
    apply Nat.mod_divide; lia.
Qed.

Lemma divide_le d n : Nat.divide d n -> 0 < n -> 0 < d <= n.
Proof. intros [k ->] H. destruct k, d; nia. Qed.

Lemma prime_divisor : forall n, 2 <= n -> exists q, is_prime q /\ Nat.divide q n.
Proof.
  induction n as [n IH] using lt_wf_ind. intros H2.
  destruct (is_prime_dec n) as [P|NP].
  - exists n. split; auto. apply Nat.divide_refl.
  - destruct (forallb (fun d => negb (n mod d =? 0)) (seq 2 (n - 2))) eqn:E.
    + exfalso. apply NP. split; auto. intros d Hd.
      destruct (divide_le _ _ Hd ltac:(lia)) as [Hd0 Hdn].
      destruct (Nat.eq_dec d 1); auto. destruct (Nat.eq_dec d n); auto.
      exfalso. rewrite forallb_forall in E. specialize (E d). rewrite in_seq in E.
      specialize (E ltac:(lia)). apply negb_true_iff, Nat.eqb_neq in E.
      apply E. apply Nat.mod_divide; auto; lia.
    + assert (exists d, In d (seq 2 (n - 2)) /\ n mod d = 0) as (d & Hd & Hm).
      { clear IH NP. induction (seq 2 (n - 2)) as [|d l IH]; simpl in E; [discriminate|].
        apply andb_false_iff in E. destruct E as [E|E].
        - apply negb_false_iff, Nat.eqb_eq in E. exists d. simpl. auto.
        - destruct (IH E) as (d' & ? & ?). exists d'. simpl. auto. }
      rewrite in_seq in Hd. destruct (IH d) as (q & Pq & Hq); try lia.
      exists q. split; auto. apply Nat.divide_trans with d; auto. apply Nat.mod_divide; lia.
Qed.

Lemma prime_mul p a b : is_prime p -> Nat.divide p (a * b) -> Nat.divide p a \/ Nat.divide p b.
Proof.
  intros [H2 Hp] Hd. destruct (Hp (Nat.gcd p a) (Nat.gcd_divide_l p a)) as [G|G].
  - right. apply Nat.gauss with a; auto.
  - left. rewrite <- G. apply Nat.gcd_divide_r.
Qed.

Lemma prime_eq p q : is_prime p -> is_prime q -> Nat.divide p q -> p = q.
Proof. intros [H2 _] [H2' H] Hd. destruct (H p Hd); lia. Qed.

(* ---- the sieve ---- *)
Lemma cross_out_spec max i p m : 2 <= i -> m < max ->
  cross_out max i p m = true <-> p m = true /\ ~ (Nat.divide i m /\ i < m).
Proof.
  intros Hi Hm. unfold cross_out.
  assert (G : forall l, fold_left (fun (p : nat -> bool) j => if i * j <? max then upd Nat.eq_dec p (i * j) false else p) l p m = true
     <-> p m = true /\ ~ exists j, In j l /\ m = i * j).
  { intros l. revert p. induction l as [|j l IH]; intros p; simpl.
    - split; [intros; split; auto; intros (j & [] & _)|tauto].
    - rewrite IH. destruct (i * j <? max) eqn:E.
      + unfold upd. destruct (Nat.eq_dec m (i * j)).
        * split; [intros [? _]; discriminate|]. intros [_ H]. exfalso. apply H. exists j. auto.
        * split; intros [H1 H2]; split; auto; intros (j' & Hj & He).
          -- destruct Hj as [->|]; auto. apply H2. eauto.
          -- apply H2. eauto.
      + apply Nat.ltb_ge in E. split; intros [H1 H2]; split; auto; intros (j' & Hj & He).
        * destruct Hj as [->|]; [lia|]. apply H2. eauto.
        * apply H2. eauto. }
  rewrite G. split; intros [H1 H2]; split; auto.
  - intros [[k Hk] Hlt]. apply H2. exists k. rewrite in_seq. split; [|lia].
    split; [destruct k as [|[|k]]; lia|]. nia.
  - intros (j & Hj & ->). rewrite in_seq in Hj. apply H2. split; [exists j; lia|nia].
Qed.

Lemma sieve_spec max : forall k m, 2 <= m < max -> k <= max - 2 ->
  fold_left (fun (p : nat -> bool) i => if p i then cross_out max i p else p) (seq 2 k) (fun _ => true) m = true
  <-> ~ exists d, is_prime d /\ d < k + 2 /\ Nat.divide d m /\ d < m.
Proof.
  induction k as [|k IH]; intros m Hm Hk.
  - simpl. split; auto. intros _ (d & [? _] & ? & _). lia.
  - rewrite seq_S, fold_left_app. cbn [fold_left].
    set (p := fold_left _ _ _) in *.
    assert (Hprime : p (2 + k) = true <-> is_prime (2 + k)).
    { rewrite IH by lia. split.
      - intros H. destruct (is_prime_dec (2 + k)) as [P|NP]; auto.
        destruct (prime_divisor (2 + k)) as (q & Pq & Hq); [lia|].
        destruct (divide_le _ _ Hq ltac:(lia)).
        destruct (Nat.eq_dec q (2 + k)); [subst; auto|].
        exfalso. apply H. exists q. repeat split; auto; try apply Pq; lia.
      - intros [_ P] (d & [Hd _] & _ & Hdiv & Hlt). destruct (P d Hdiv); lia. }
    destruct (p (2 + k)) eqn:E.
    + rewrite cross_out_spec by lia. rewrite IH by lia.
      split.
      * intros [H1 H2] (d & Pd & Hd & Hdiv & Hlt).
        destruct (Nat.eq_dec d (2 + k)); [subst; auto|]. apply H1. exists d. repeat split; auto; try apply Pd; lia.
      * intros H. split.
        -- intros (d & Pd & Hd & ?). apply H. exists d. split; auto. split; auto. lia.
        -- intros [H1 H2]. apply H. exists (2 + k). split; [apply Hprime; auto|]. split; auto. lia.
    + rewrite IH by lia. split.
      * intros H (d & Pd & Hd & Hdiv & Hlt).
        destruct (Nat.eq_dec d (2 + k)).
        -- subst. apply Hprime in Pd. congruence.
        -- apply H. exists d. repeat split; auto; try apply Pd; lia.
      * intros H (d & Pd & Hd & ?). apply H. exists d. split; auto. split; auto. lia.
Qed.

Lemma prime_rost_spec max m : 2 <= m < max -> prime_rost max m = true <-> is_prime m.
Proof.
  intros Hm. unfold prime_rost. rewrite sieve_spec by lia. split.
  - intros H. destruct (is_prime_dec m) as [P|NP]; auto. exfalso.
    destruct (prime_divisor m) as (q & Pq & Hq); [lia|].
    destruct (divide_le _ _ Hq ltac:(lia)).
    destruct (Nat.eq_dec q m); [subst; auto|].
    apply H. exists q. repeat split; auto; try apply Pq; lia.
  - intros [_ P] (d & [Hd _] & _ & Hdiv & Hlt). destruct (P d Hdiv); lia.
Qed.

Lemma primes_upto_in n p : In p (primes_upto n) <-> is_prime p /\ p <= n.
Proof.
  unfold primes_upto. rewrite filter_In, in_seq. split.
  - intros [H1 H2]. apply prime_rost_spec in H2; [|lia]. split; auto. lia.
  - intros [H1 H2]. destruct (H1) as [H3 _]. split; [lia|]. apply prime_rost_spec; auto. lia.
Qed.

Lemma increasing_filter f l : increasing l -> increasing (filter f l).
Proof.
  induction l as [|x l IH]; simpl; auto. intros [H1 H2]. destruct (f x); simpl; auto.
  split; auto. intros y Hy. apply filter_In in Hy. apply H1, Hy.
Qed.
Lemma increasing_seq n : forall a, increasing (seq a n).
Proof.
  induction n; intros a; simpl; auto. split; auto. intros y Hy. apply in_seq in Hy. lia.
Qed.
Lemma primes_upto_increasing n : increasing (primes_upto n).
Proof. apply increasing_filter, increasing_seq. Qed.
Lemma increasing_NoDup l : increasing l -> NoDup l.
Proof.
  induction l as [|x l IH]; simpl; intros H; constructor; [|apply IH, H].
  intros Hx. apply H in Hx. lia.
Qed.

(* ---- multiplicities ---- *)
Lemma count_loop_spec : forall fuel n p, 2 <= p -> 0 < n <= fuel -> exact_power p (count_loop fuel n p) n.
Proof.
  induction fuel as [|fuel IH]; intros n p Hp Hn; [lia|].
  cbn [count_loop]. destruct (n mod p =? 0) eqn:E.
  - apply Nat.eqb_eq in E. apply Nat.mod_divide in E; [|lia]. destruct E as [k ->].
    rewrite Nat.div_mul by lia.
    destruct (IH k p Hp) as [H1 H2]; [nia|]. split.
    + rewrite Nat.pow_succ_r', (Nat.mul_comm k). apply Nat.mul_divide_mono_l; auto.
    + rewrite Nat.pow_succ_r', (Nat.mul_comm k). intros H. apply H2.
      apply Nat.mul_divide_cancel_l in H; auto; lia.
  - apply Nat.eqb_neq in E. split.
    + apply Nat.divide_1_l.
    + rewrite Nat.pow_1_r. intros H. apply E. apply Nat.mod_divide; auto; lia.
Qed.
Lemma multiplicity_spec n p : 2 <= p -> 0 < n -> exact_power p (multiplicity n p) n.
Proof. intros. apply count_loop_spec; lia. Qed.

Lemma pow_divide p a b : a <= b -> Nat.divide (p ^ a) (p ^ b).
Proof. intros H. exists (p ^ (b - a)). rewrite <- Nat.pow_add_r. f_equal. lia. Qed.

Lemma exact_power_le p k j n : exact_power p k n -> Nat.divide (p ^ j) n -> j <= k.
Proof.
  intros [_ H] Hj. destruct (le_lt_dec j k) as [|Hlt]; auto. exfalso. apply H.
  apply Nat.divide_trans with (p ^ j); auto. apply pow_divide. lia.
Qed.
Lemma exact_power_unique p a b n : exact_power p a n -> exact_power p b n -> a = b.
Proof.
  intros Ha Hb. pose proof (exact_power_le _ _ _ _ Ha (proj1 Hb)).
  pose proof (exact_power_le _ _ _ _ Hb (proj1 Ha)). lia.
Qed.

Lemma multiplicity_1 p : 2 <= p -> multiplicity 1 p = 0.
Proof.
  intros Hp. apply exact_power_unique with p 1; [apply multiplicity_spec; lia|].
  split; [apply Nat.divide_1_l|]. rewrite Nat.pow_1_r. intros H. apply divide_le in H; lia.
Qed.

Lemma multiplicity_mul_same p m : 2 <= p -> 0 < m -> multiplicity (p * m) p = S (multiplicity m p).
Proof.
  intros Hp Hm. apply exact_power_unique with p (p * m); [apply multiplicity_spec; nia|].
  destruct (multiplicity_spec m p Hp Hm) as [H1 H2]. split; rewrite Nat.pow_succ_r'.
  - apply Nat.mul_divide_mono_l; auto.
  - intros H. apply H2. apply Nat.mul_divide_cancel_l in H; auto; lia.
Qed.

Lemma pow_divide_coprime p q m : is_prime p -> is_prime q -> p <> q ->
  forall k, Nat.divide (p ^ k) (q * m) -> Nat.divide (p ^ k) m.
Proof.
  intros Pp Pq Hne k H. apply Nat.gauss with q; auto.
  induction k as [|k IH]; [reflexivity|].
  assert (Hk : Nat.gcd (p ^ k) q = 1).
  { apply IH. apply Nat.divide_trans with (p ^ S k); auto. apply pow_divide. lia. }
  rewrite Nat.pow_succ_r'.
  destruct (proj2 Pq (Nat.gcd (p * p ^ k) q) (Nat.gcd_divide_r _ _)) as [|G]; auto.
  exfalso. assert (Hd : Nat.divide q (p * p ^ k)) by (rewrite <- G at 1; apply Nat.gcd_divide_l).
  destruct (prime_mul _ _ _ Pq Hd) as [D|D].
  - apply Hne. symmetry. apply prime_eq; auto.
  - assert (Nat.divide q 1); [|destruct Pq; apply divide_le in H0; lia].
    rewrite <- Hk. apply Nat.gcd_greatest; auto. apply Nat.divide_refl.
Qed.

Lemma multiplicity_mul_other p q m : is_prime p -> is_prime q -> p <> q -> 0 < m ->
  multiplicity (q * m) p = multiplicity m p.
Proof.
  intros Pp Pq Hne Hm. pose proof (proj1 Pp) as H2. pose proof (proj1 Pq) as H2'.
  apply exact_power_unique with p m; [|apply multiplicity_spec; auto].
  destruct (multiplicity_spec (q * m) p H2) as [E1 E2]; [nia|]. split.
  - apply pow_divide_coprime with q; auto.
  - intros H. apply E2. apply Nat.divide_trans with m; auto. exists q. auto.
Qed.

(* ---- product of prime powers ---- *)
Definition powers (L : list nat) (f : nat -> nat) : nat := product (map (fun p => p ^ f p) L).

Lemma powers_cons p L f : powers (p :: L) f = p ^ f p * powers L f.
Proof. reflexivity. Qed.
Lemma powers_ext L f g : (forall p, In p L -> f p = g p) -> powers L f = powers L g.
Proof.
  induction L as [|p L IH]; intros H; [reflexivity|].
  unfold powers. cbn. rewrite (H p) by (left; auto). f_equal. apply IH.
  intros; apply H; right; auto.
Qed.
Lemma powers_0 L : powers L (fun _ => 0) = 1.
Proof. induction L; [reflexivity|]. unfold powers in *. cbn [map product fold_right] in *. change (fold_right Nat.mul 1) with product. rewrite IHL. reflexivity. Qed.
Lemma powers_bump L f q : NoDup L -> In q L ->
  powers L (fun p => if Nat.eq_dec p q then S (f p) else f p) = q * powers L f.
Proof.
  induction L as [|p L IH]; intros ND Hin; [destruct Hin|].
  inversion_clear ND. destruct Hin as [->|Hin].
  - unfold powers. cbn [map product fold_right].
    destruct (Nat.eq_dec q q) as [_|C]; [|congruence].
    rewrite Nat.pow_succ_r', <- Nat.mul_assoc. f_equal. f_equal.
    apply (powers_ext L). intros p Hp. destruct (Nat.eq_dec p q); [subst; contradiction|auto].
  - assert (p <> q) by (intros ->; contradiction).
    unfold powers in *. cbn [map product fold_right] in *.
    destruct (Nat.eq_dec p q) as [|_]; [contradiction|].
    specialize (IH H0 Hin). unfold product in IH. rewrite IH. nia.
Qed.

Lemma powers_multiplicity L : NoDup L -> (forall p, In p L -> is_prime p) ->
  forall n, 0 < n -> (forall p, is_prime p -> p <= n -> In p L) ->
  powers L (multiplicity n) = n.
Proof.
  intros ND HL. induction n as [n IH] using lt_wf_ind. intros Hn Hall.
  destruct (Nat.eq_dec n 1) as [->|Hn1].
  - rewrite <- (powers_0 L) at 2. apply powers_ext. intros p Hp. apply multiplicity_1. apply HL; auto.
  - destruct (prime_divisor n) as (q & Pq & [m Hm]); [lia|]. pose proof (proj1 Pq) as Hq2.
    assert (0 < m) by (destruct m; lia). assert (m < n) by nia.
    assert (Hq : In q L) by (apply Hall; auto; nia).
    rewrite (powers_ext L _ (fun p => if Nat.eq_dec p q then S (multiplicity m p) else multiplicity m p)).
    + rewrite powers_bump by auto. rewrite IH; try lia.
      intros p Pp Hle. apply Hall; auto. lia.
    + intros p Hp. rewrite Hm, Nat.mul_comm. destruct (Nat.eq_dec p q) as [->|Hne].
      * apply multiplicity_mul_same; lia.
      * apply multiplicity_mul_other; auto.
Qed.

Lemma powers_divide L f g : (forall p, In p L -> f p <= g p) -> Nat.divide (powers L f) (powers L g).
Proof.
  induction L as [|p L IH]; intros H; [apply Nat.divide_refl|].
  unfold powers. cbn.
  destruct (pow_divide p (f p) (g p)) as [a Ha]; [apply H; left; auto|].
  destruct IH as [b Hb]; [intros; apply H; right; auto|].
  exists (a * b). unfold powers in Hb. rewrite Ha. unfold product in *. rewrite Hb. nia.
Qed.

(* ---- C14 ---- *)
Lemma decomposition_ok n : 0 < n ->
  map fst (decomposition n) = primes_upto n /\
  (forall p c, In (p, c) (decomposition n) -> exact_power p c n) /\
  product (map (fun '(p, c) => p ^ c) (decomposition n)) = n.
Proof.
  intros Hn. unfold decomposition. split; [|split].
  - rewrite map_map. cbn. apply map_id.
  - intros p c H. apply in_map_iff in H. destruct H as (p' & E & H). injection E as -> <-.
    apply primes_upto_in in H. destruct H as [[H2 _] _]. apply multiplicity_spec; auto.
  - rewrite map_map. apply (powers_multiplicity (primes_upto n)); auto.
    + apply increasing_NoDup, primes_upto_increasing.
    + intros p Hp. apply primes_upto_in in Hp. tauto.
    + intros p P H. apply primes_upto_in. auto.
Qed.

Lemma decomposition_props n : 0 < n ->
  (forall p, In p (map fst (decomposition n)) <-> is_prime p /\ p <= n) /\
  increasing (map fst (decomposition n)) /\
  (forall p c, In (p, c) (decomposition n) -> exact_power p c n) /\
  product (map (fun '(p, c) => p ^ c) (decomposition n)) = n.
Proof.
  intros Hn. destruct (decomposition_ok n Hn) as (H1 & H2 & H3). rewrite H1.
  split; [apply primes_upto_in|]. split; [apply primes_upto_increasing|]. auto.
Qed.

Lemma product_app a b : product (a ++ b) = product a * product b.
Proof. unfold product. induction a as [|x a IH]; cbn; [lia|]. rewrite IH. nia. Qed.
Lemma product_repeat p c : product (repeat p c) = p ^ c.
Proof. induction c; cbn; auto. Qed.

Lemma plain_ok n : 0 < n ->
  product (plain_prime_factors n) = n /\ (forall p, In p (plain_prime_factors n) -> is_prime p).
Proof.
  intros Hn. destruct (decomposition_props n Hn) as (H1 & _ & _ & H3). unfold plain_prime_factors. split.
  - rewrite <- H3 at 2. clear. induction (decomposition n) as [|[p c] l IH]; auto.
    cbn [flat_map map]. rewrite product_app, product_repeat, IH. reflexivity.
  - intros p Hp. apply in_flat_map in Hp. destruct Hp as ([q c] & Hin & Hr).
    apply repeat_spec in Hr. subst q. apply H1. apply in_map_iff. exists (p, c). auto.
Qed.

(* ---- C15 ---- *)
Lemma list_max_fold l : forall m, fold_left (fun m x => if m <? x then x else m) l m = fold_right Nat.max m l.
Proof.
  induction l as [|x l IH]; intros m; cbn [fold_left fold_right]; auto. rewrite IH.
  clear IH. destruct (m <? x) eqn:E; [apply Nat.ltb_lt in E|apply Nat.ltb_ge in E].
  - induction l as [|y l IHl]; cbn; [lia|]. rewrite IHl. lia.
  - induction l as [|y l IHl]; cbn; [lia|]. rewrite IHl. lia.
Qed.
Lemma list_max_le l x : In x l -> x <= list_max l.
Proof.
  unfold list_max. rewrite list_max_fold. induction l as [|y l IH]; intros H; [destruct H|].
  destruct H as [->|H]; cbn; [lia|]. specialize (IH H). lia.
Qed.
Lemma list_max_in l : l <> [] -> exists x, In x l /\ list_max l = x.
Proof.
  unfold list_max. rewrite list_max_fold. induction l as [|y l IH]; intros H; [congruence|].
  destruct l as [|z l].
  - exists y. cbn. split; auto. lia.
  - destruct IH as (x & Hx & E); [discriminate|]. cbn [fold_right] in *. rewrite E.
    destruct (le_lt_dec y x); [exists x|exists y]; split; try (right; exact Hx); try (left; auto; fail); lia.
Qed.
Lemma list_min1_spec l : forall x, 
  (forall y, In y (x :: l) -> list_min1 x l <= y) /\ In (list_min1 x l) (x :: l).
Proof.
  unfold list_min1. induction l as [|y l IH]; intros x; cbn [fold_left].
  - split; [|left; auto]. intros y [->|[]]; lia.
  - destruct (y <? x) eqn:E; [apply Nat.ltb_lt in E|apply Nat.ltb_ge in E].
    + destruct (IH y) as [H1 H2]. split.
      * intros z [->|Hz]; [|apply H1; auto]. specialize (H1 y (or_introl eq_refl)). lia.
      * right. exact H2.
    + destruct (IH x) as [H1 H2]. split.
      * intros z [->|[->|Hz]]; [apply H1; left; auto| |apply H1; right; auto].
        specialize (H1 x (or_introl eq_refl)). lia.
      * destruct H2 as [H2|H2]; [left; auto|right; right; auto].
Qed.

Lemma mul_loop p c : forall r a, fold_left (fun r _ => r * p) (seq a c) r = r * p ^ c.
Proof.
  induction c as [|c IH]; intros r a; cbn [seq fold_left]; [cbn; lia|]. rewrite IH.
  rewrite Nat.pow_succ_r'. lia.
Qed.

Lemma fold_powers f L : forall r,
  fold_left (fun ret p => fold_left (fun r _ => r * p) (seq 0 (f p)) ret) L r = r * powers L f.
Proof.
  induction L as [|p L IH]; intros r; cbn [fold_left]; [cbn; lia|].
  rewrite IH, mul_loop, powers_cons. lia.
Qed.

Lemma gcd_list_spec l : (forall n, In n l -> Nat.divide (gcd_list l) n) /\
  (forall d, (forall n, In n l -> Nat.divide d n) -> Nat.divide d (gcd_list l)).
Proof.
  induction l as [|x l [H1 H2]]; split.
  - intros n [].
  - intros d _. apply Nat.divide_0_r.
  - intros n [->|Hn]; cbn; [apply Nat.gcd_divide_l|].
    apply Nat.divide_trans with (gcd_list l); auto. apply Nat.gcd_divide_r.
  - intros d Hd. cbn. apply Nat.gcd_greatest; [apply Hd; left; auto|].
    apply H2. intros; apply Hd; right; auto.
Qed.

Lemma gcd_list_pos l : l <> [] -> (forall n, In n l -> 0 < n) -> 0 < gcd_list l.
Proof.
  destruct l as [|x l]; [congruence|]. intros _ H.
  destruct (gcd_list_spec (x :: l)) as [H1 _]. specialize (H1 x (or_introl eq_refl)).
  specialize (H x (or_introl eq_refl)). apply divide_le in H1; lia.
Qed.

(* the product of the minimal powers is the gcd *)
Lemma powers_min L (l : list nat) mn : NoDup L -> (forall p, In p L -> is_prime p) ->
  l <> [] -> (forall n, In n l -> 0 < n) ->
  (forall n p, In n l -> is_prime p -> p <= n -> In p L) ->
  (forall p, In p L -> (forall n, In n l -> mn p <= multiplicity n p) /\
                       exists n, In n l /\ mn p = multiplicity n p) ->
  powers L mn = gcd_list l.
Proof.
  intros ND HL Hne Hpos Hall Hmin. destruct (gcd_list_spec l) as [G1 G2].
  pose proof (gcd_list_pos l Hne Hpos) as Gpos.
  assert (Hfull : forall n d, In n l -> Nat.divide d n -> powers L (multiplicity d) = d).
  { intros n d Hn Hd. specialize (Hpos n Hn). destruct (divide_le _ _ Hd Hpos).
    apply powers_multiplicity; auto; try lia. intros p P Hp. apply Hall with n; auto. lia. }
  apply Nat.divide_antisym.
  - apply G2. intros n Hn. rewrite <- (Hfull n n Hn (Nat.divide_refl n)).
    apply powers_divide. intros p Hp. apply Hmin; auto.
  - destruct l as [|n0 l0]; [congruence|].
    rewrite <- (Hfull n0 _ (or_introl eq_refl) (G1 n0 (or_introl eq_refl))).
    apply powers_divide. intros p Hp. destruct (Hmin p Hp) as [_ (n & Hn & ->)].
    pose proof (proj1 (HL p Hp)) as H2.
    apply exact_power_le with p n.
    + apply multiplicity_spec; auto.
    + apply Nat.divide_trans with (gcd_list (n0 :: l0)); [|apply G1; auto].
      apply multiplicity_spec; auto.
Qed.

Lemma padding_is_gcd l : l <> [] -> (forall n, In n l -> 0 < n) ->
  prime_factor_padding l = gcd_list l.
Proof.
  intros Hne Hpos. unfold prime_factor_padding. destruct l as [|n0 l]; [congruence|].
  rewrite fold_powers, Nat.mul_1_l. apply powers_min; auto.
  - apply increasing_NoDup, primes_upto_increasing.
  - intros p Hp. apply primes_upto_in in Hp. tauto.
  - intros n p Hn P Hle. apply primes_upto_in. split; auto.
    pose proof (list_max_le _ _ Hn). lia.
  - intros p Hp. destruct (list_min1_spec (map (fun n => multiplicity n p) l) (multiplicity n0 p)) as [H1 H2].
    split.
    + intros n Hn. apply H1. change (In (multiplicity n p) (map (fun n => multiplicity n p) (n0 :: l))).
      apply in_map_iff. eauto.
    + change (In (list_min1 (multiplicity n0 p) (map (fun n => multiplicity n p) l))
                 (map (fun n => multiplicity n p) (n0 :: l))) in H2.
      apply in_map_iff in H2. destruct H2 as (n & E & Hn). eauto.
Qed.

(* ---- the collective padding factor ---- *)
Lemma increasing_ext : forall l m, increasing l -> increasing m -> (forall x, In x l <-> In x m) -> l = m.
Proof.
  induction l as [|x l IH]; intros m Hl Hm H.
  - destruct m as [|y m]; auto. exfalso. apply (H y). left; auto.
  - destruct m as [|y m]; [exfalso; apply (H x); left; auto|].
    destruct Hl as [Hl1 Hl2], Hm as [Hm1 Hm2].
    assert (x = y).
    { destruct (proj1 (H x) (or_introl eq_refl)) as [|Hx]; auto.
      destruct (proj2 (H y) (or_introl eq_refl)) as [|Hy]; auto.
      apply Hl1 in Hy. apply Hm1 in Hx. lia. }
    subst y. f_equal. apply IH; auto. intros z. split; intros Hz.
    + destruct (proj1 (H z) (or_intror Hz)) as [->|]; auto. apply Hl1 in Hz. lia.
    + destruct (proj2 (H z) (or_intror Hz)) as [->|]; auto. apply Hm1 in Hz. lia.
Qed.

Lemma primes_prefix n M : n <= M -> primes_upto n = filter (fun p => p <=? n) (primes_upto M).
Proof.
  intros H. apply increasing_ext.
  - apply primes_upto_increasing.
  - apply increasing_filter, primes_upto_increasing.
  - intros p. rewrite filter_In, !primes_upto_in, Nat.leb_le. intuition lia.
Qed.

Lemma map_prefix {A} (h : nat -> A) z n l : increasing l ->
  map (fun p => if p <=? n then h p else z) l =
  map h (filter (fun p => p <=? n) l) ++ repeat z (length l - length (filter (fun p => p <=? n) l)).
Proof.
  induction l as [|x l IH]; intros H; [reflexivity|]. destruct H as [H1 H2]. cbn [map filter length].
  destruct (x <=? n) eqn:E.
  - cbn [map app length]. rewrite IH by auto. reflexivity.
  - apply Nat.leb_gt in E.
    assert (F : forall k, (forall y, In y k -> n < y) ->
       filter (fun p => p <=? n) k = [] /\ map (fun p => if p <=? n then h p else z) k = repeat z (length k)).
    { induction k as [|y k IHk]; intros Hk; [auto|]. cbn [map filter length repeat].
      pose proof (Hk y (or_introl eq_refl)) as Hy. apply Nat.leb_gt in Hy. rewrite Hy.
      destruct IHk as [-> ->]; [intros; apply Hk; right; auto|]. auto. }
    destruct (F l) as [F1 F2]; [intros y Hy; apply H1 in Hy; lia|].
    rewrite F1, F2. reflexivity.
Qed.

Definition entry (n p : nat) : nat * nat := if p <=? n then (p, multiplicity n p) else (0, 0).

Lemma filled_entries n M : n <= M -> filled (length (primes_upto M)) n = map (entry n) (primes_upto M).
Proof.
  intros H. unfold filled, decomposition, decomposition_size. rewrite (primes_prefix n M H).
  symmetry. apply (map_prefix (fun p => (p, multiplicity n p))). apply primes_upto_increasing.
Qed.

Lemma zip_min_map (g h : nat -> nat * nat) L : zip_min (map g L) (map h L) = map (fun p => min2 (g p) (h p)) L.
Proof. induction L as [|p L IH]; cbn; auto. f_equal; auto. Qed.

Lemma fold_zip_min (g : nat -> nat -> nat * nat) L rest : forall f0,
  fold_left zip_min (map (fun n => map (g n) L) rest) (map f0 L) =
  map (fun p => fold_left min2 (map (fun n => g n p) rest) (f0 p)) L.
Proof.
  induction rest as [|n rest IH]; intros f0; cbn [map fold_left]; auto.
  rewrite zip_min_map, IH. reflexivity.
Qed.

Lemma fold_min2 (l : list (nat * nat)) : forall a,
  fold_left min2 l a = (fold_left Nat.min (map fst l) (fst a), fold_left Nat.min (map snd l) (snd a)).
Proof.
  induction l as [|b l IH]; intros a; cbn [map fold_left]; [destruct a; auto|].
  rewrite IH. reflexivity.
Qed.

Lemma fold_min_spec l : forall x, (forall y, In y (x :: l) -> fold_left Nat.min l x <= y) /\
  In (fold_left Nat.min l x) (x :: l).
Proof.
  induction l as [|y l IH]; intros x; cbn [fold_left].
  - split; [|left; auto]. intros y [->|[]]; lia.
  - destruct (IH (Nat.min x y)) as [H1 H2]. split.
    + specialize (H1 _ (or_introl eq_refl)) as H3.
      intros z [->|[->|Hz]]; try lia. apply H1. right; auto.
    + destruct H2 as [H2|H2]; [|right; right; auto].
      rewrite <- H2. destruct (Nat.min_dec x y) as [->| ->]; [left|right; left]; auto.
Qed.

Lemma multiplicity_large n p : 2 <= p -> 0 < n < p -> multiplicity n p = 0.
Proof.
  intros Hp Hn. apply exact_power_unique with p n; [apply multiplicity_spec; lia|].
  split; [apply Nat.divide_1_l|]. rewrite Nat.pow_1_r. intros H. apply divide_le in H; lia.
Qed.

Lemma fold_pairs (F : nat -> nat * nat) L : forall r,
  fold_left (fun ret '(p, c) => fold_left (fun r _ => r * p) (seq 0 c) ret) (map F L) r =
  r * product (map (fun p => fst (F p) ^ snd (F p)) L).
Proof.
  induction L as [|p L IH]; intros r; cbn [map fold_left]; [cbn; lia|].
  rewrite IH. transitivity (fold_left (fun r _ => r * fst (F p)) (seq 0 (snd (F p))) r * product (map (fun p => fst (F p) ^ snd (F p)) L)).
  - destruct (F p) as [q c]. reflexivity.
  - rewrite mul_loop. unfold product. cbn [fold_right]. lia.
Qed.

Lemma padding_factor_is_gcd l : l <> [] -> (forall n, In n l -> 0 < n) -> padding_factor l = gcd_list l.
Proof.
  intros Hne Hpos. unfold padding_factor.
  set (M := list_max l). set (PM := primes_upto M).
  assert (Hsz : list_max (map decomposition_size l) = length PM).
  { apply Nat.le_antisymm.
    - destruct (list_max_in (map decomposition_size l)) as (x & Hx & ->); [destruct l; [congruence|discriminate]|].
      apply in_map_iff in Hx. destruct Hx as (n & <- & Hn). unfold decomposition_size.
      rewrite (primes_prefix n M) by (apply list_max_le; auto).
      fold PM. clear. induction PM as [|p P IH]; cbn; auto. destruct (p <=? n); cbn; lia.
    - destruct (list_max_in l Hne) as (x & Hx & E). unfold PM, M. rewrite E.
      apply list_max_le. apply in_map_iff. exists x. auto. }
  rewrite Hsz. clear Hsz.
  assert (Hf : map (filled (length PM)) l = map (fun n => map (entry n) PM) l).
  { apply map_ext_in. intros n Hn. apply filled_entries. apply list_max_le; auto. }
  rewrite Hf. clear Hf. destruct l as [|n0 rest]; [congruence|].
  cbn [map]. rewrite fold_zip_min, fold_pairs, Nat.mul_1_l.
  set (mn := fun p => fold_left Nat.min (map (fun n => multiplicity n p) rest) (multiplicity n0 p)).
  assert (HP : forall p, In p PM -> is_prime p) by (intros p Hp; apply primes_upto_in in Hp; tauto).
  assert (Hsnd : forall n p, In n (n0 :: rest) -> In p PM -> snd (entry n p) = multiplicity n p).
  { intros n p Hn Hp. unfold entry. destruct (p <=? n) eqn:E; auto. apply Nat.leb_gt in E.
    cbn. symmetry. apply multiplicity_large; [apply HP; auto|]. split; auto. }
  replace (product _) with (powers PM mn).
  - apply powers_min; auto.
    + apply increasing_NoDup, primes_upto_increasing.
    + intros n p Hn P Hle. apply primes_upto_in. split; auto.
      pose proof (list_max_le _ _ Hn). unfold M. lia.
    + intros p Hp. unfold mn.
      destruct (fold_min_spec (map (fun n => multiplicity n p) rest) (multiplicity n0 p)) as [H1 H2]. split.
      * intros n Hn. apply H1. change (In (multiplicity n p) (map (fun n => multiplicity n p) (n0 :: rest))).
        apply in_map_iff. eauto.
      * change (multiplicity n0 p :: map (fun n => multiplicity n p) rest) with
          (map (fun n => multiplicity n p) (n0 :: rest)) in H2.
        apply in_map_iff in H2. destruct H2 as (n & E & Hn). eauto.
  - unfold powers. f_equal. apply map_ext_in. intros p Hp.
    rewrite fold_min2. cbn [fst snd]. rewrite !map_map.
    assert (Es : fold_left Nat.min (map (fun x => snd (entry x p)) rest) (snd (entry n0 p)) = mn p).
    { unfold mn. rewrite (Hsnd n0 p) by (auto; left; auto). f_equal.
      apply map_ext_in. intros n Hn. apply Hsnd; auto. right; auto. }
    rewrite Es.
    destruct (mn p) as [|k] eqn:Emn; [reflexivity|]. f_equal. symmetry.
    (* p divides all numbers *)
    destruct (fold_min_spec (map (fun n => multiplicity n p) rest) (multiplicity n0 p)) as [H1 _].
    change (multiplicity n0 p :: map (fun n => multiplicity n p) rest) with
          (map (fun n => multiplicity n p) (n0 :: rest)) in H1. fold (mn p) in H1. rewrite Emn in H1.
    assert (Hle : forall n, In n (n0 :: rest) -> fst (entry n p) = p).
    { intros n Hn. unfold entry. destruct (p <=? n) eqn:E; auto. apply Nat.leb_gt in E. exfalso.
      specialize (H1 (multiplicity n p) ltac:(apply in_map_iff; eauto)).
      rewrite multiplicity_large in H1; [lia|apply HP; auto|split; auto]. }
    destruct (fold_min_spec (map (fun x => fst (entry x p)) rest) (fst (entry n0 p))) as [_ H2].
    change (fst (entry n0 p) :: map (fun x => fst (entry x p)) rest) with
      (map (fun x => fst (entry x p)) (n0 :: rest)) in H2.
    apply in_map_iff in H2. destruct H2 as (n & E & Hn). rewrite <- E. apply Hle; auto.
Qed.

(* ---- C16 ---- *)
Lemma cancel_inner_1 l : cancel_inner 1 l = (1, l).
Proof.
  induction l as [|y l IH]; cbn [cancel_inner]; auto. rewrite IH.
  destruct (1 =? y) eqn:E; auto. apply Nat.eqb_eq in E. subst; auto.
Qed.
Lemma cancel_inner_spec x l x' l' : cancel_inner x l = (x', l') ->
  exists g, x = g * x' /\ product l = g * product l' /\
    (x' = 1 \/ x' = x /\ ~ In x' l') /\ (forall y, In y l' -> y = 1 \/ In y l).
Proof.
  revert x' l'. induction l as [|y l IH]; intros x' l'; cbn [cancel_inner].
  - intros E. injection E as <- <-. exists 1. split; [lia|]. split; [reflexivity|]. split; [|intros y []].
    right. split; auto.
  - destruct (x =? y) eqn:E.
    + apply Nat.eqb_eq in E. subst y. rewrite cancel_inner_1. intros E. injection E as <- <-.
      exists x. cbn. split; [lia|]. split; [lia|]. split; auto. intros y [->|]; auto.
    + destruct (cancel_inner x l) as [x1 l1]. intros E1. injection E1 as <- <-.
      destruct (IH _ _ eq_refl) as (g & H1 & H2 & H3 & H4). apply Nat.eqb_neq in E.
      exists g. split; auto. split; [cbn; unfold product in H2; rewrite H2; lia|]. split.
      * destruct H3 as [|[H3 H5]]; auto. right. split; auto. intros [|]; auto. congruence.
      * intros z [->|Hz]; [right; left; auto|]. destruct (H4 z Hz); auto. right; right; auto.
Qed.

Lemma cancel_spec : forall l1 l2 l1' l2', cancel l1 l2 = (l1', l2') ->
  exists g, product l1 = g * product l1' /\ product l2 = g * product l2' /\
    (forall x, In x l1' -> x = 1 \/ In x l1 /\ ~ In x l2') /\ (forall y, In y l2' -> y = 1 \/ In y l2).
Proof.
  induction l1 as [|x l1 IH]; intros l2 l1' l2'; cbn [cancel].
  - intros E. injection E as <- <-. exists 1. split; [auto|]. split; [lia|]. split; [intros x []|auto].
  - destruct (cancel_inner x l2) as [x1 k] eqn:E1. destruct (cancel l1 k) as [m k'] eqn:E2.
    intros E. injection E as <- <-.
    destruct (cancel_inner_spec _ _ _ _ E1) as (g1 & A1 & A2 & A3 & A4).
    destruct (IH _ _ _ E2) as (g2 & B1 & B2 & B3 & B4).
    exists (g1 * g2). split; [|split; [|split]].
    + cbn. unfold product in *. rewrite B1, A1. nia.
    + unfold product in *. rewrite A2, B2. nia.
    + intros z [->|Hz].
      * destruct A3 as [|[A3 A5]]; auto.
        destruct (Nat.eq_dec z 1); auto. right. split; [left; auto|].
        intros Hz. destruct (B4 z Hz); auto.
      * destruct (B3 z Hz) as [|[]]; auto. right. split; [right|]; auto.
    + intros z Hz. destruct (B4 z Hz) as [|Hk]; auto.
Qed.

Lemma prime_in_product q l : is_prime q -> (forall x, In x l -> x = 1 \/ is_prime x) ->
  Nat.divide q (product l) -> In q l.
Proof.
  intros Pq. induction l as [|x l IH]; intros Hl Hd.
  - cbn in Hd. destruct Pq. apply divide_le in Hd; lia.
  - cbn in Hd. destruct (prime_mul _ _ _ Pq Hd) as [H|H].
    + left. destruct (Hl x (or_introl eq_refl)) as [->|Px].
      * destruct Pq. apply divide_le in H; lia.
      * symmetry. apply prime_eq; auto.
    + right. apply IH; auto. intros; apply Hl; right; auto.
Qed.

Lemma fold_mul l : forall r, fold_left Nat.mul l r = r * product l.
Proof. induction l as [|x l IH]; intros r; cbn [fold_left]; [cbn; lia|]. rewrite IH. unfold product. cbn [fold_right]. lia. Qed.

Lemma gcd_function_is_lcm a b : 0 < a -> 0 < b -> greatest_common_divisor a b = Nat.lcm a b.
Proof.
  intros Ha Hb. unfold greatest_common_divisor.
  destruct (plain_ok a Ha) as [PA1 PA2]. destruct (plain_ok b Hb) as [PB1 PB2].
  destruct (cancel (plain_prime_factors a) (plain_prime_factors b)) as [l1 l2] eqn:E.
  destruct (cancel_spec _ _ _ _ E) as (g & H1 & H2 & H3 & H4).
  rewrite PA1 in H1. rewrite PB1 in H2. cbn [fst]. rewrite fold_mul.
  assert (G : Nat.gcd (product l1) (product l2) = 1).
  { destruct (Nat.eq_dec (Nat.gcd (product l1) (product l2)) 0) as [Z|NZ].
    { apply Nat.gcd_eq_0 in Z. destruct Z as [Z _]. rewrite Z in H1. lia. }
    destruct (Nat.eq_dec (Nat.gcd (product l1) (product l2)) 1) as [|N1]; auto. exfalso.
    destruct (prime_divisor (Nat.gcd (product l1) (product l2))) as (q & Pq & Hq); [lia|].
    assert (D1 : In q l1).
    { apply prime_in_product; auto.
      - intros x Hx. destruct (H3 x Hx) as [|[? _]]; auto.
      - apply Nat.divide_trans with (1 := Hq). apply Nat.gcd_divide_l. }
    assert (D2 : In q l2).
    { apply prime_in_product; auto.
      - intros x Hx. destruct (H4 x Hx); auto.
      - apply Nat.divide_trans with (1 := Hq). apply Nat.gcd_divide_r. }
    destruct (H3 q D1) as [->|[_ ?]]; auto. destruct Pq; lia. }
  assert (g <> 0) by (intros ->; lia).
  unfold Nat.lcm. rewrite H1, H2 at 2. rewrite H2 at 2.
  rewrite Nat.gcd_mul_mono_l, G, Nat.mul_1_r, (Nat.mul_comm g (product l2)), Nat.div_mul by auto. rewrite H2, H1. nia.
Qed.

Lemma gcd_function_right_iff a b : 0 < a -> 0 < b ->
  greatest_common_divisor a b = Nat.gcd a b <-> a = b.
Proof.
  intros Ha Hb. rewrite gcd_function_is_lcm by auto. split.
  - intros E.
    pose proof (Nat.divide_lcm_l a b) as L1. pose proof (Nat.divide_lcm_r a b) as L2.
    pose proof (Nat.gcd_divide_l a b) as G1. pose proof (Nat.gcd_divide_r a b) as G2.
    rewrite E in L1, L2. apply divide_le in G1; auto. apply divide_le in G2; auto.
    apply divide_le in L1; try lia. apply divide_le in L2; lia.
  - intros ->. rewrite Nat.gcd_diag, Nat.lcm_diag. reflexivity.
Qed.

(* ---- factors_minimum, factor_sqrt ---- *)
From Coq Require Import Permutation.

Fixpoint ascending (l : list nat) : Prop :=
  match l with [] => True | x :: l' => (forall y, In y l' -> x <= y) /\ ascending l' end.

Lemma insert_perm le x l : Permutation (x :: l) (insert le x l).
Proof.
  induction l as [|y l IH]; cbn; auto. destruct (le x y); auto.
  eapply perm_trans; [apply perm_swap|]. auto.
Qed.
Lemma sort_up_perm l : Permutation l (sort_up l).
Proof.
  induction l as [|x l IH]; cbn; auto. eapply perm_trans; [|apply insert_perm]. auto.
Qed.
Lemma sort_down_perm l : Permutation l (sort_down l).
Proof.
  induction l as [|x l IH]; cbn; auto. eapply perm_trans; [|apply insert_perm]. auto.
Qed.
Lemma insert_in le x l y : In y (insert le x l) <-> y = x \/ In y l.
Proof.
  split; intros H.
  - apply (Permutation_in _ (Permutation_sym (insert_perm le x l))) in H. destruct H; auto.
  - apply (Permutation_in _ (insert_perm le x l)). destruct H; [left|right]; auto.
Qed.
Lemma sort_up_sorted l : ascending (sort_up l).
Proof.
  assert (I : forall x l, ascending l -> ascending (insert Nat.leb x l)).
  { intros x m. induction m as [|y m IH]; intros H.
    - cbn. split; auto. intros y [].
    - cbn [insert]. destruct (x <=? y) eqn:E.
      + apply Nat.leb_le in E. split; auto. intros z [->|Hz]; auto. apply H in Hz. lia.
      + apply Nat.leb_gt in E. destruct H as [H1 H2]. split; auto.
        intros z Hz. apply insert_in in Hz. destruct Hz as [->|]; auto. lia. }
  induction l as [|x l IH]; cbn; auto.
Qed.
Lemma sort_down_sorted l : non_increasing (sort_down l).
Proof.
  assert (I : forall x l, non_increasing l -> non_increasing (insert (fun a b => b <=? a) x l)).
  { intros x m. induction m as [|y m IH]; intros H.
    - cbn. split; auto. intros y [].
    - cbn [insert]. destruct (y <=? x) eqn:E.
      + apply Nat.leb_le in E. split; auto. intros z [->|Hz]; auto. apply H in Hz. lia.
      + apply Nat.leb_gt in E. destruct H as [H1 H2]. split; auto.
        intros z Hz. apply insert_in in Hz. destruct Hz as [->|]; auto. lia. }
  induction l as [|x l IH]; cbn; auto.
Qed.
Lemma product_perm l m : Permutation l m -> product l = product m.
Proof.
  induction 1; cbn; auto; unfold product in *; try congruence; lia.
Qed.

Lemma ascending_app l m : ascending l -> ascending m -> (forall x y, In x l -> In y m -> x <= y) -> ascending (l ++ m).
Proof.
  induction l as [|x l IH]; intros Hl Hm H; cbn; auto. destruct Hl as [H1 H2]. split.
  - intros y Hy. apply in_app_or in Hy. destruct Hy; auto. apply H; auto. left; auto.
  - apply IH; auto. intros; apply H; auto. right; auto.
Qed.
Lemma plain_ascending n : ascending (plain_prime_factors n).
Proof.
  unfold plain_prime_factors, decomposition. pose proof (primes_upto_increasing n) as H.
  induction (primes_upto n) as [|p l IH]; [exact I|]. cbn [map flat_map]. destruct H as [H1 H2].
  apply ascending_app; auto.
  - clear. induction (multiplicity n p) as [|k IH]; cbn; auto. split; auto.
    intros y Hy. apply repeat_spec in Hy. lia.
  - intros x y Hx Hy. apply repeat_spec in Hx. subst x. apply in_flat_map in Hy.
    destruct Hy as ([q c] & Hq & Hy). apply repeat_spec in Hy. subst y.
    apply in_map_iff in Hq. destruct Hq as (q' & E & Hq). injection E as -> _.
    apply H1 in Hq. lia.
Qed.

Lemma combine_loop_spec mn : forall fuel l, length l <= fuel -> ascending l -> l <> [] ->
  let r := combine_loop fuel mn l in
  product r = product l /\ r <> [] /\ (length r = 1 \/ forall x, In x r -> mn <= x).
Proof.
  induction fuel as [|fuel IH]; intros l Hf Ha Hne.
  - destruct l; [congruence|cbn in Hf; lia].
  - destruct l as [|a [|b l]]; [congruence| |].
    + cbn. auto.
    + cbn [combine_loop]. destruct (a <? mn) eqn:E.
      * destruct (IH (sort_up (a * b :: l))) as (H1 & H2 & H3).
        -- rewrite <- (Permutation_length (sort_up_perm (a * b :: l))). cbn in *. lia.
        -- apply sort_up_sorted.
        -- intros C. pose proof (Permutation_length (sort_up_perm (a * b :: l))) as L.
           rewrite C in L. discriminate.
        -- split; auto. rewrite H1, <- (product_perm _ _ (sort_up_perm (a * b :: l))). cbn. lia.
      * apply Nat.ltb_ge in E. split; auto. split; auto. right. intros x [->|Hx]; auto.
        apply Ha in Hx. lia.
Qed.

Lemma plain_nonempty n : 2 <= n -> plain_prime_factors n <> [].
Proof.
  intros Hn E. destruct (plain_ok n) as [H _]; [lia|]. rewrite E in H. cbn in H. lia.
Qed.

Lemma factors_minimum_ok number mn : 2 <= number ->
  let r := factors_minimum number mn in
  product r = number /\ non_increasing r /\ r <> [] /\ (length r = 1 \/ forall x, In x r -> mn <= x).
Proof.
  intros Hn. unfold factors_minimum. cbv zeta.
  destruct (plain_ok number) as [HP _]; [lia|].
  destruct (combine_loop_spec mn (length (plain_prime_factors number)) (plain_prime_factors number))
    as (H1 & H2 & H3); auto.
  { apply plain_ascending. } { apply plain_nonempty; auto. }
  set (l := combine_loop _ _ _) in *. rewrite HP in H1. clearbody l.
  destruct l as [|a [|b l]]; [congruence| |].
  - split; auto. split; [|auto]. cbn. split; auto. intros y [].
  - set (r := a :: b :: l) in *. pose proof (sort_down_perm r) as P.
    split; [rewrite <- (product_perm _ _ P); auto|]. split; [apply sort_down_sorted|]. split.
    + intros C. rewrite C in P. apply Permutation_length in P. discriminate.
    + rewrite <- (Permutation_length P). destruct H3 as [|H3]; auto. right. intros x Hx.
      apply H3. apply (Permutation_in _ (Permutation_sym P)); auto.
Qed.

Lemma sqrt_loop_spec number : 0 < number -> forall l a, a * product l = number ->
  Nat.divide (sqrt_loop number a l) number /\ number <= sqrt_loop number a l * sqrt_loop number a l.
Proof.
  intros Hn. induction l as [|b l IH]; intros a H.
  - cbn in H. cbn. replace a with number by lia. split; [apply Nat.divide_refl|nia].
  - cbn [sqrt_loop]. destruct (a * a <? number) eqn:E.
    + apply IH. cbn in H. unfold product. lia.
    + apply Nat.ltb_ge in E. split; auto. exists (product (b :: l)). lia.
Qed.
Lemma factor_sqrt_ok number : 2 <= number ->
  Nat.divide (factor_sqrt number) number /\ number <= factor_sqrt number * factor_sqrt number.
Proof.
  intros Hn. unfold factor_sqrt. destruct (plain_ok number) as [HP _]; [lia|].
  pose proof (plain_nonempty number Hn) as HN.
  destruct (plain_prime_factors number) as [|a l]; [congruence|].
  apply sqrt_loop_spec; [lia|]. exact HP.
Qed.
