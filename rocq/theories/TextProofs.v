From Verif Require Import Base TextModel.

Lemma digit_char_ok d : (0 <= d < 10)%Z -> is_digit (digit_char d) = true /\ digit_val (digit_char d) = d.
Proof.
  intros H. unfold is_digit, digit_val, digit_char.
  rewrite nat_ascii_embedding by lia. split; [apply andb_true_iff; split; apply Nat.leb_le|]; lia.
Qed.

Lemma digits_all fuel : forall n, (0 <= n < 2 ^ Z.of_nat fuel)%Z -> Forall (fun c => is_digit c = true) (digits fuel n).
Proof.
  induction fuel as [|f IH]; intros n H.
  - cbn. constructor; [|constructor]. apply digit_char_ok. cbn in H. lia.
  - cbn [digits]. destruct (n <? 10)%Z eqn:E.
    + constructor; [|constructor]. apply digit_char_ok. lia.
    + apply Forall_app. split.
      * apply IH. rewrite Nat2Z.inj_succ, Z.pow_succ_r in H by lia. split; [apply Z.div_pos; lia|].
        apply Z.div_lt_upper_bound; lia.
      * constructor; [|constructor]. apply digit_char_ok. apply Z.mod_pos_bound. lia.
Qed.

Definition not_digit_head (s : text) : Prop := match s with c :: _ => is_digit c = false | [] => True end.

Lemma scan_digits_stop acc s : not_digit_head s -> scan_digits acc s = (acc, s).
Proof. destruct s; cbn; auto. intros ->. auto. Qed.

(* scanning a block of digits *)
Definition value (acc : Z) (ds : text) : Z := fold_left (fun a c => 10 * a + digit_val c)%Z ds acc.
Lemma scan_digits_app ds : Forall (fun c => is_digit c = true) ds ->
  forall acc s, scan_digits acc (ds ++ s) = scan_digits (value acc ds) s.
Proof.
  induction 1 as [|c ds Hc Hds IH]; intros acc s; [reflexivity|].
  cbn [app scan_digits]. rewrite Hc, IH. reflexivity.
Qed.
Lemma digits_value fuel : forall n, (0 <= n < 2 ^ Z.of_nat fuel)%Z -> value 0 (digits fuel n) = n.
Proof.
  induction fuel as [|f IH]; intros n H.
  - cbn in H. unfold value. cbn [digits fold_left]. destruct (digit_char_ok n) as [_ E]; lia.
  - cbn [digits]. destruct (n <? 10)%Z eqn:E.
    + unfold value. cbn [fold_left]. destruct (digit_char_ok n) as [_ E']; lia.
    + unfold value. rewrite fold_left_app. fold (value 0 (digits f (n / 10))).
      rewrite IH.
      * cbn [fold_left]. destruct (digit_char_ok (n mod 10)) as [_ E']; [apply Z.mod_pos_bound; lia|].
        rewrite E'. lia.
      * rewrite Nat2Z.inj_succ, Z.pow_succ_r in H by lia. split; [apply Z.div_pos; lia|].
        apply Z.div_lt_upper_bound; lia.
Qed.
Lemma digits_cons fuel n : (0 <= n < 2 ^ Z.of_nat fuel)%Z -> exists c r, digits fuel n = c :: r.
Proof.
  intros H. destruct (digits fuel n) eqn:E; [|eauto]. exfalso.
  destruct fuel; cbn in E; [discriminate|]. destruct (n <? 10)%Z; [discriminate|].
  apply app_eq_nil in E. destruct E; discriminate.
Qed.

Lemma fuel_ok n : (0 <= n)%Z -> (0 <= n < 2 ^ Z.of_nat (S (Z.to_nat (Z.log2 n))))%Z.
Proof.
  intros H. split; auto. rewrite Nat2Z.inj_succ, Z2Nat.id by apply Z.log2_nonneg.
  destruct (Z.eq_dec n 0) as [->|]; [reflexivity|]. apply Z.log2_spec. lia.
Qed.

Lemma print_nat_digits n : (0 <= n)%Z -> Forall (fun c => is_digit c = true) (print_nat n).
Proof. intros H. apply digits_all, fuel_ok, H. Qed.
Lemma print_nat_cons n : (0 <= n)%Z -> exists c r, print_nat n = c :: r /\ is_digit c = true.
Proof.
  intros H. pose proof (print_nat_digits n H) as F. unfold print_nat in *.
  destruct (digits_cons _ _ (fuel_ok n H)) as (c & r & E). exists c, r. split; auto.
  rewrite E in F. inversion F; auto.
Qed.
Lemma scan_print_nat n s : (0 <= n)%Z -> not_digit_head s -> scan_unsigned (print_nat n ++ s) = Some (n, s).
Proof.
  intros H Hs. pose proof (print_nat_digits n H) as F.
  destruct (print_nat_cons n H) as (c & r & E & Hc). unfold scan_unsigned. rewrite E. cbn [app]. rewrite Hc.
  change (c :: r ++ s) with ((c :: r) ++ s). rewrite <- E, scan_digits_app by auto.
  unfold print_nat. rewrite digits_value by (apply fuel_ok; auto). rewrite scan_digits_stop by auto. reflexivity.
Qed.

Lemma digit_range c : is_digit c = true -> 48 <= nat_of_ascii c <= 57.
Proof. unfold is_digit. rewrite andb_true_iff, !Nat.leb_le. auto. Qed.
Lemma is_digit_not c d : is_digit c = true -> is_digit d = false -> c <> d.
Proof. congruence. Qed.
Lemma eqb_neq (c d : ascii) : c <> d -> (c =? d)%char = false.
Proof. apply Ascii.eqb_neq. Qed.

Lemma digit_not_space c : is_digit c = true -> is_space c = false.
Proof.
  intros H. pose proof (digit_range c H). unfold is_space.
  rewrite eqb_neq by (intros ->; discriminate). cbn [orb].
  apply andb_false_iff. right. apply Nat.leb_gt. lia.
Qed.

Lemma scan_int_digit c r : is_digit c = true -> scan_int (c :: r) = scan_unsigned (c :: r).
Proof.
  intros H. unfold scan_int. cbn [skip_while]. rewrite digit_not_space by auto.
  destruct c as [[] [] [] [] [] [] [] []]; try discriminate H; reflexivity.
Qed.

Lemma scan_int_minus r : scan_int ("-"%char :: r) =
  match scan_unsigned r with Some (n, t) => Some (- n, t)%Z | None => None end.
Proof. reflexivity. Qed.

Lemma scan_print_int z s : not_digit_head s -> scan_int (print_int z ++ s) = Some (z, s).
Proof.
  intros Hs. unfold print_int. destruct (z <? 0)%Z eqn:E.
  - cbn [app]. rewrite scan_int_minus.
    rewrite scan_print_nat by (auto; lia). repeat f_equal. lia.
  - destruct (print_nat_cons z) as (c & r & Ec & Hc); [lia|].
    rewrite Ec. cbn [app]. rewrite scan_int_digit by auto. change (c :: r ++ s) with ((c :: r) ++ s).
    rewrite <- Ec. apply scan_print_nat; auto. lia.
Qed.

(* leading blanks are skipped *)
Lemma scan_int_space c s : is_space c = true -> scan_int (c :: s) = scan_int s.
Proof. intros H. unfold scan_int. cbn [skip_while]. rewrite H. reflexivity. Qed.

(* characters of a printed number *)
Definition num_char (c : ascii) : Prop := is_digit c = true \/ c = "-"%char.
Lemma print_int_chars z : Forall num_char (print_int z).
Proof.
  unfold print_int. destruct (z <? 0)%Z eqn:E.
  - constructor; [right; auto|]. eapply Forall_impl; [|apply print_nat_digits; lia]. left; auto.
  - eapply Forall_impl; [|apply print_nat_digits; lia]. left; auto.
Qed.
Lemma print_int_cons z : exists c r, print_int z = c :: r /\ num_char c.
Proof.
  pose proof (print_int_chars z) as F. destruct (print_int z) as [|c r] eqn:E.
  - exfalso. unfold print_int in E. destruct (z <? 0)%Z eqn:E1; [discriminate|].
    destruct (print_nat_cons z) as (c & r & E' & _); [lia|]. congruence.
  - exists c, r. split; auto. inversion F; auto.
Qed.

(* a predicate on characters that no number contains *)
Definition no_num (p : ascii -> bool) : Prop := forall c, num_char c -> p c = false.
Lemma break_app p a s : Forall (fun c => p c = false) a -> 
  match s with c :: _ => p c = true | [] => True end -> break p (a ++ s) = (a, s).
Proof.
  induction 1 as [|c a Hc Ha IH]; intros Hs; cbn [app break].
  - destruct s as [|c s]; cbn; auto. rewrite Hs. reflexivity.
  - rewrite Hc, IH by auto. reflexivity.
Qed.
Lemma break_print p z s : no_num p -> match s with c :: _ => p c = true | [] => True end ->
  break p (print_int z ++ s) = (print_int z, s).
Proof.
  intros Hp. apply break_app. eapply Forall_impl; [|apply print_int_chars]. apply Hp.
Qed.
Lemma skip_print p z s : no_num p -> skip_while p (print_int z ++ s) = print_int z ++ s.
Proof.
  intros Hp. destruct (print_int_cons z) as (c & r & -> & Hc). cbn. rewrite Hp; auto.
Qed.
Lemma skip_non p z s : no_num (fun c => negb (p c)) -> skip_while p (print_int z ++ s) = skip_while p s.
Proof.
  intros Hp. pose proof (print_int_chars z) as F. induction F as [|c r Hc F IH]; auto.
  cbn. specialize (Hp c Hc). apply negb_false_iff in Hp. rewrite Hp. auto.
Qed.
Lemma no_num_intro p : p "-"%char = false -> (forall c, is_digit c = true -> p c = false) -> no_num p.
Proof. intros H1 H2 c [H| ->]; auto. Qed.
Lemma scan_print_int_nil z : scan_int (print_int z) = Some (z, []).
Proof. rewrite <- (app_nil_r (print_int z)) at 1. apply scan_print_int. exact I. Qed.

(* comparison with a character that is not part of a number *)
Lemma num_char_neq c d : num_char c -> is_digit d = false -> d <> "-"%char -> (c =? d)%char = false.
Proof. intros [H| ->] Hd Hm; apply eqb_neq; congruence. Qed.
