From Verif Require Import Base OffsetModel OffsetSpec.
Local Ltac Zify.zify_post_hook ::= idtac.
Local Open Scope Z_scope.

Local Ltac cases :=
  repeat match goal with |- context [?x <? ?y] =>
    lazymatch x with context [if _ then _ else _] => fail | _ => destruct (Z.ltb_spec x y) end end.
Lemma max_num_step (m : Z) i :
  m <= max_step m i /\
  (forall t d s size, i = Mem t d s size ->
   (a_is d = true -> a_num d <= max_step m i) /\ (a_is s = true -> a_num s <= max_step m i)).
Proof.
  destruct i as [t d s size|a size|]; cbn [max_step]; [|split; [lia|discriminate]..].
  split; [|intros t' d' s' size' [= <- <- <- <-]; split; intros E; rewrite E; cbn [andb]].
  - destruct (a_is d), (a_is s); cbn [andb]; cases; lia.
  - destruct (a_is s); cbn [andb]; cases; lia.
  - destruct (a_is d); cbn [andb]; cases; lia.
Qed.

Lemma max_num_aux l : forall m, m <= fold_left max_step l m /\
  forall a size, accessed l a size -> a_is a = true -> a_num a <= fold_left max_step l m.
Proof.
  induction l as [|i l IH]; intros m; cbn [fold_left].
  - split; [lia|]. intros a size (t & d & s & [] & _).
  - destruct (max_num_step m i) as [S1 S2]. destruct (IH (max_step m i)) as [I1 I2]. split; [lia|].
    intros a size (t & d & s & [->|Hin] & Ha) E.
    + destruct (S2 t d s size eq_refl) as [D1 D2]. destruct Ha as [->| ->]; [specialize (D1 E)|specialize (D2 E)]; lia.
    + apply (I2 a size); [exists t, d, s; auto|assumption].
Qed.
Lemma max_num_ge l : 0 <= max_num l.
Proof. apply (max_num_aux l 0). Qed.
Lemma max_num_bound l a size : accessed l a size -> a_is a = true -> a_num a <= max_num l.
Proof. apply (max_num_aux l 0). Qed.

(* ----- extents ----- *)
Definition grows (st st' : (Z -> Z) * Z) : Prop := (forall k, fst st k <= fst st' k) /\ snd st <= snd st'.
Lemma grows_refl st : grows st st. Proof. split; intros; lia. Qed.
Lemma grows_trans a b c : grows a b -> grows b c -> grows a c.
Proof. intros [H1 H2] [H3 H4]. split; [intros k; specialize (H1 k); specialize (H3 k); lia|lia]. Qed.

Definition covered (st : (Z -> Z) * Z) (a : addr) (size : Z) : Prop :=
  if a_is a then 0 <= a_num a -> a_off a + size <= fst st (a_num a) else a_off a + size <= snd st.
Lemma covered_grows st st' a size : grows st st' -> covered st a size -> covered st' a size.
Proof.
  intros [H1 H2] C. unfold covered in *. destruct (a_is a); [intros N; specialize (C N); specialize (H1 (a_num a)); lia|lia].
Qed.

Lemma touch_ok st a size : grows st (touch st a size) /\ covered (touch st a size) a size.
Proof.
  destruct st as [ext mx]. unfold touch, covered, grows.
  destruct (a_is a) eqn:E; cbn [andb negb].
  - destruct (Z.leb_spec 0 (a_num a)) as [N|N]; cbn [andb].
    + destruct (Z.ltb_spec (ext (a_num a)) (a_off a + size)) as [L|L]; cbn [fst snd].
      * split; [split; [|lia]|].
        -- intros k. unfold upd. destruct (Z.eq_dec k (a_num a)); [subst; lia|lia].
        -- intros _. rewrite upd_same. lia.
      * split; [split; intros; lia|intros; lia].
    + cbn [fst snd]. split; [split; intros; lia|intros; lia].
  - destruct (Z.ltb_spec mx (a_off a + size)); cbn [fst snd]; (split; [split; intros; lia|lia]).
Qed.

Lemma extents_aux l : forall st, grows st (fold_left extent_step l st) /\
  forall a size, accessed l a size -> covered (fold_left extent_step l st) a size.
Proof.
  induction l as [|i l IH]; intros st; cbn [fold_left].
  - split; [apply grows_refl|]. intros a size (t & d & s & [] & _).
  - destruct (IH (extent_step st i)) as [I1 I2].
    assert (G : grows st (extent_step st i)).
    { destruct i; try apply grows_refl. eapply grows_trans; apply touch_ok. }
    split; [eapply grows_trans; eassumption|].
    intros a size (t & d & s & [->|Hin] & Ha).
    + destruct Ha as [->| ->].
      * eapply covered_grows; [exact I1|]. eapply covered_grows; [apply touch_ok|]. apply touch_ok.
      * eapply covered_grows; [exact I1|]. apply touch_ok.
    + apply I2. exists t, d, s; auto.
Qed.
Lemma extents_covered l a size : accessed l a size -> covered (extents l) a size.
Proof. apply (extents_aux l). Qed.
Lemma extents_nonneg l : (forall k, 0 <= fst (extents l) k) /\ 0 <= snd (extents l).
Proof. destruct (extents_aux l (fun _ => 0, 0)) as [G _]. exact G. Qed.

(* ----- layout ----- *)
Lemma offset2_step ext i : offset2 ext i + CACHE_LINE <= offset2 ext (S i) /\
  offset2 ext i + ext (Z.of_nat i) <= offset2 ext (S i).
Proof. cbn [offset2]. unfold CACHE_LINE. destruct (Z.leb_spec 64 (ext (Z.of_nat i))); lia. Qed.
Lemma offset2_mono ext i j : (i <= j)%nat -> offset2 ext i <= offset2 ext j.
Proof.
  induction 1 as [|j _ IH]; [lia|]. assert (S := offset2_step ext j). unfold CACHE_LINE in S. lia.
Qed.
Lemma offset2_pos ext i : 0 <= offset2 ext i.
Proof. apply (offset2_mono ext 0 i). lia. Qed.

Lemma num_buffers_eq l : Z.of_nat (num_buffers l) = max_num l + 2.
Proof. unfold num_buffers. assert (X := max_num_ge l). lia. Qed.

Lemma total_ge l : offset2 (fst (extents l)) (num_buffers l - 1) <= total l /\ snd (extents l) <= total l.
Proof.
  unfold total. destruct (extents l) as [ext mx] eqn:E. cbn [fst snd].
  assert (P := offset2_pos ext (num_buffers l - 1)).
  assert (M : 0 <= mx) by (assert (X := extents_nonneg l); rewrite E in X; apply X).
  set (e := offset2 _ _) in *. set (e' := if e <? mx then mx else e).
  assert (E1 : e <= e' /\ mx <= e') by (unfold e'; destruct (Z.ltb_spec e mx); lia).
  assert (Q := Z.quot_rem e' CACHE_LINE ltac:(discriminate)).
  assert (R := Z.rem_bound_pos e' CACHE_LINE ltac:(lia) ltac:(reflexivity)). unfold CACHE_LINE in *. lia.
Qed.
Lemma total_aligned l : (CACHE_LINE | total l).
Proof. unfold total. destruct (extents l). eexists. reflexivity. Qed.

Lemma numbered_inside l a size : accessed l a size -> numbered a -> 0 <= a_off a ->
  let b := a_off (rebase l a) in
  offset2 (fst (extents l)) (Z.to_nat (a_num a)) <= b /\
  b + size <= offset2 (fst (extents l)) (S (Z.to_nat (a_num a))) /\
  offset2 (fst (extents l)) (S (Z.to_nat (a_num a))) <= total l.
Proof.
  intros Ha [Hi Hn] Ho. assert (B := max_num_bound l a size Ha Hi). assert (N := num_buffers_eq l).
  assert (C := extents_covered l a size Ha). unfold covered in C. rewrite Hi in C. specialize (C Hn).
  unfold rebase. rewrite Hi. cbn [a_off]. assert (Hn' := Hn). apply Z.leb_le in Hn'. rewrite Hn'.
  unfold buffer_offset. destruct (Z.eqb_spec (a_num a) (Z.of_nat (num_buffers l) - 1)) as [X|X]; [lia|].
  assert (S := offset2_step (fst (extents l)) (Z.to_nat (a_num a))). rewrite Z2Nat.id in S by assumption.
  split; [lia|]. split; [lia|].
  assert (M := offset2_mono (fst (extents l)) (Datatypes.S (Z.to_nat (a_num a))) (num_buffers l - 1) ltac:(lia)).
  assert (T := total_ge l). lia.
Qed.

Lemma buffers_apart l a n b m : non_negative l -> accessed l a n -> accessed l b m -> numbered a -> numbered b ->
  a_num a <> a_num b -> apart (a_off (rebase l a)) n (a_off (rebase l b)) m.
Proof.
  intros H Ha Hb Na Nb D. unfold apart.
  destruct (numbered_inside l a n Ha Na ltac:(apply (H a n Ha))) as (A1 & A2 & _).
  destruct (numbered_inside l b m Hb Nb ltac:(apply (H b m Hb))) as (B1 & B2 & _).
  destruct Na as [_ Na], Nb as [_ Nb].
  destruct (Z_lt_le_dec (a_num a) (a_num b)).
  - left. assert (M := offset2_mono (fst (extents l)) (S (Z.to_nat (a_num a))) (Z.to_nat (a_num b)) ltac:(lia)). lia.
  - right. assert (M := offset2_mono (fst (extents l)) (S (Z.to_nat (a_num b))) (Z.to_nat (a_num a)) ltac:(lia)). lia.
Qed.

Lemma inside_total l a n : non_negative l -> accessed l a n -> (numbered a \/ a_is a = false) ->
  0 <= a_off (rebase l a) /\ a_off (rebase l a) + n <= total l.
Proof.
  intros H Ha [N|N].
  - destruct (numbered_inside l a n Ha N ltac:(apply (H a n Ha))) as (A1 & A2 & A3).
    assert (P := offset2_pos (fst (extents l)) (Z.to_nat (a_num a))). lia.
  - assert (C := extents_covered l a n Ha). unfold covered in C. rewrite N in C.
    unfold rebase. rewrite N. destruct (H a n Ha). destruct (total_ge l). lia.
Qed.

(* same buffer: the distance of two accesses is kept *)
Lemma same_buffer l a b : numbered a -> numbered b -> a_num a = a_num b ->
  a_off (rebase l a) - a_off (rebase l b) = a_off a - a_off b.
Proof.
  intros [A1 A2] [B1 B2] E. unfold rebase. rewrite A1, B1, E. apply Z.leb_le in B2. rewrite B2. cbn [a_off]. lia.
Qed.

Lemma reached_inside l a n : reached l a n ->
  let b := a_off (rebase l a) in
  offset2 (fst (extents l)) (Z.to_nat (a_num a)) <= b /\
  b + n <= offset2 (fst (extents l)) (S (Z.to_nat (a_num a))) /\
  offset2 (fst (extents l)) (S (Z.to_nat (a_num a))) <= total l.
Proof.
  intros ([Hi Hn] & Ho & b & m & Hb & [Bi Bn] & E & L). cbv zeta.
  assert (B := max_num_bound l b m Hb Bi). assert (N := num_buffers_eq l).
  assert (C := extents_covered l b m Hb). unfold covered in C. rewrite Bi, E in C. specialize (C Hn).
  unfold rebase. rewrite Hi. cbn [a_off]. assert (Hn' := Hn). apply Z.leb_le in Hn'. rewrite Hn'.
  unfold buffer_offset. destruct (Z.eqb_spec (a_num a) (Z.of_nat (num_buffers l) - 1)) as [X|X]; [lia|].
  assert (S := offset2_step (fst (extents l)) (Z.to_nat (a_num a))). rewrite Z2Nat.id in S by assumption.
  split; [lia|]. split; [lia|].
  assert (M := offset2_mono (fst (extents l)) (Datatypes.S (Z.to_nat (a_num a))) (num_buffers l - 1) ltac:(lia)).
  assert (T := total_ge l). lia.
Qed.
Lemma reached_apart l a n b m : reached l a n -> reached l b m -> a_num a <> a_num b ->
  apart (a_off (rebase l a)) n (a_off (rebase l b)) m /\
  0 <= a_off (rebase l a) /\ a_off (rebase l a) + n <= total l.
Proof.
  intros Ra Rb D. unfold apart.
  destruct (reached_inside l a n Ra) as (A1 & A2 & A3). destruct (reached_inside l b m Rb) as (B1 & B2 & _).
  destruct Ra as ([_ Na] & _), Rb as ([_ Nb] & _).
  assert (P := offset2_pos (fst (extents l)) (Z.to_nat (a_num a))). split; [|lia].
  destruct (Z_lt_le_dec (a_num a) (a_num b)).
  - left. assert (M := offset2_mono (fst (extents l)) (S (Z.to_nat (a_num a))) (Z.to_nat (a_num b)) ltac:(lia)). lia.
  - right. assert (M := offset2_mono (fst (extents l)) (S (Z.to_nat (a_num b))) (Z.to_nat (a_num a)) ltac:(lia)). lia.
Qed.
