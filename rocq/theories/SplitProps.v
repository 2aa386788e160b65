From Verif Require Import Base SplitModel.

Definition sum (l : list nat) : nat := fold_right Nat.add 0 l.

Lemma bump_nth r : forall l i, nth_error (bump_first r l) i =
  match nth_error l i with
  | Some x => Some (if i <? r then S x else x)
  | None => None
  end.
Proof.
  induction r as [|r IH]; intros l i.
  - cbn. destruct (nth_error l i); auto.
  - destruct l as [|x l]; cbn; [destruct i; auto|].
    destruct i as [|i]; cbn; auto. rewrite IH. reflexivity.
Qed.
Lemma bump_length r : forall l, length (bump_first r l) = length l.
Proof. induction r; intros [|x l]; cbn; auto. Qed.
Lemma bump_sum r : forall l, r <= length l -> sum (bump_first r l) = sum l + r.
Proof.
  induction r as [|r IH]; intros [|x l] H; cbn in *; try lia.
  unfold sum in IH. rewrite IH; lia.
Qed.
Lemma sum_repeat n x : sum (repeat x n) = n * x.
Proof. induction n; [reflexivity|]. cbn [repeat sum fold_right]. fold (sum (repeat x n)). rewrite IHn. lia. Qed.
Lemma sum_scale k l : sum (map (fun x => x * k) l) = sum l * k.
Proof. induction l; [reflexivity|]. cbn [map sum fold_right]. fold (sum l) (sum (map (fun x => x * k) l)). rewrite IHl. lia. Qed.

Lemma nth_error_repeat_lt {A} (x : A) n i : i < n -> nth_error (repeat x n) i = Some x.
Proof. revert i. induction n; intros [|i] H; cbn; try lia; auto. apply IHn. lia. Qed.

Lemma split_entry count ts n i : 0 < ts -> i < n ->
  nth_error (split_sizes (count * ts) ts n) i = Some ((count / n + if i <? count mod n then 1 else 0) * ts).
Proof.
  intros Hts Hi. unfold split_sizes, fill. rewrite Nat.div_mul by lia.
  rewrite nth_error_map, bump_nth, nth_error_repeat_lt by auto. cbn [option_map].
  f_equal. destruct (i <? count mod n); [rewrite Nat.add_1_r|rewrite Nat.add_0_r]; reflexivity.
Qed.
Lemma split_length msize ts n : length (split_sizes msize ts n) = n.
Proof. unfold split_sizes, fill. rewrite map_length, bump_length. apply repeat_length. Qed.

Lemma split_ok count ts n : 0 < ts -> 0 < n ->
  let s := split_sizes (count * ts) ts n in
  length s = n /\ sum s = count * ts /\
  (forall i x, nth_error s i = Some x -> exists k, x = k * ts /\ (k = count / n \/ k = count / n + 1)) /\
  (forall i j x y, i <= j -> nth_error s i = Some x -> nth_error s j = Some y -> y <= x).
Proof.
  intros Hts Hn s. assert (HL : length s = n) by apply split_length.
  split; [auto|]. split; [|split].
  - unfold s, split_sizes, fill. rewrite Nat.div_mul by lia.
    rewrite sum_scale, bump_sum, sum_repeat.
    + rewrite (Nat.div_mod count n) at 3; lia.
    + rewrite repeat_length. pose proof (Nat.mod_upper_bound count n). lia.
  - intros i x H. assert (i < n) by (rewrite <- HL; apply nth_error_Some; congruence).
    unfold s in H. rewrite split_entry in H by auto. injection H as <-.
    exists (count / n + (if i <? count mod n then 1 else 0)). split; auto. destruct (i <? count mod n); lia.
  - intros i j x y Hij Hx Hy. assert (j < n) by (rewrite <- HL; apply nth_error_Some; congruence).
    unfold s in Hx, Hy. rewrite split_entry in Hx, Hy by lia. injection Hx as <-. injection Hy as <-.
    apply Nat.mul_le_mono_r.
    destruct (i <? count mod n) eqn:E1, (j <? count mod n) eqn:E2; try lia.
Qed.

(* C11: [count] elements of [ts] bytes over [n] sockets. *)
Theorem C11_split :
  forall count ts n, 0 < ts -> 0 < n ->
  let s := split_sizes (count * ts) ts n in
  length s = n /\ sum s = count * ts /\
  (forall i x, nth_error s i = Some x -> exists k, x = k * ts /\ (k = count / n \/ k = count / n + 1)) /\
  (forall i j x y, i <= j -> nth_error s i = Some x -> nth_error s j = Some y -> y <= x).
Proof. exact split_ok. Qed.
Print Assumptions C11_split.

Theorem C11_short :
  forall count ts n, sum (message_sizes true (count * ts) ts n) = count * ts.
Proof. intros. cbn. lia. Qed.
Print Assumptions C11_short.

Example C11_example : split_sizes (7 * 8) 8 3 = [24; 16; 16].
Proof. reflexivity. Qed.
