(* Claim C24: layout of the scratch buffers. *)
From Verif Require Import Base OffsetModel OffsetSpec OffsetProofs.
Local Open Scope Z_scope.

(* Accesses of copy and reduce lines to different buffers never overlap; inside
   one buffer distances are kept; all lie inside the reported shared memory, as
   do those without buffer number. *)
Theorem C24_buffers_do_not_overlap :
  forall l a n b m, non_negative l -> accessed l a n -> accessed l b m -> numbered a -> numbered b ->
  a_num a <> a_num b -> apart (a_off (rebase l a)) n (a_off (rebase l b)) m.
Proof. exact buffers_apart. Qed.
Print Assumptions C24_buffers_do_not_overlap.
Theorem C24_inside_reported_memory :
  forall l a n, non_negative l -> accessed l a n -> (numbered a \/ a_is a = false) ->
  0 <= a_off (rebase l a) /\ a_off (rebase l a) + n <= total l.
Proof. exact inside_total. Qed.
Print Assumptions C24_inside_reported_memory.
Theorem C24_same_buffer_same_distance :
  forall l a b, numbered a -> numbered b -> a_num a = a_num b ->
  a_off (rebase l a) - a_off (rebase l b) = a_off a - a_off b.
Proof. exact same_buffer. Qed.
Print Assumptions C24_same_buffer_same_distance.
Theorem C24_total_is_whole_cache_lines : forall l, (CACHE_LINE | total l).
Proof. exact total_aligned. Qed.
Print Assumptions C24_total_is_whole_cache_lines.

(* The program written is the program read with every operand, also of messages,
   moved to its place; only the type sreduc_ is left out. *)
Theorem C24_program_rebased :
  forall l k,
  match nth_error l k with
  | Some (Mem t d s n) => t <> sreduc_ -> nth_error (no_offset l) k = Some (Mem t (rebase l d) (rebase l s) n)
  | Some (Msg a n) => nth_error (no_offset l) k = Some (Msg (rebase l a) n)
  | Some Rest => nth_error (no_offset l) k = Some Rest
  | None => nth_error (no_offset l) k = None
  end.
Proof.
  intros l k. unfold no_offset. destruct (nth_error l k) as [[t d s n|a n|]|] eqn:E.
  - intros T. rewrite (map_nth_error _ _ _ E). cbn. destruct t; try reflexivity. contradiction.
  - rewrite (map_nth_error _ _ _ E). reflexivity.
  - rewrite (map_nth_error _ _ _ E). reflexivity.
  - apply nth_error_None. rewrite map_length. now apply nth_error_None.
Qed.
Print Assumptions C24_program_rebased.
(* After that no operand has a buffer number any more. *)
Theorem C24_no_numbers_left :
  forall l a, a_is (rebase l a) = false.
Proof. intros l a. unfold rebase. destruct (a_is a) eqn:E; [reflexivity|exact E]. Qed.
Print Assumptions C24_no_numbers_left.

Definition sh (num off : Z) : addr := Addr true true num off.
Definition direct (off : Z) : addr := Addr true false 0 off.

(* buffers 0, 1, 2 of 100, 40 and 8 bytes *)
Example C24_example :
  let l := [Mem memcpy (sh 1 0) (sh 0 60) 40; Mem memcpy (sh 0 0) (sh 2 0) 8; Rest] in
  non_negative l /\ accessed l (sh 1 0) 40 /\ numbered (sh 1 0) /\
  no_offset l = [Mem memcpy (Addr true false 1 100) (Addr true false 0 60) 40;
                 Mem memcpy (Addr true false 0 0) (Addr true false 2 164) 8; Rest] /\
  total l = 256.
Proof.
  intros l. split; [|split; [|split; [|split]]].
  - intros a n (t & d & s & [E|[E|[E|[]]]] & [->| ->]); inversion E; subst; cbn; lia.
  - exists memcpy, (sh 1 0), (sh 0 60). split; [now left|now left].
  - split; [reflexivity|discriminate].
  - vm_compute; reflexivity.
  - vm_compute; reflexivity.
Qed.

(* Messages keep clear of other buffers as long as some copy or reduce line
   reaches as far into the same buffer. *)
Theorem C24_reached_messages_do_not_overlap :
  forall l a n b m, reached l a n -> reached l b m -> a_num a <> a_num b ->
  apart (a_off (rebase l a)) n (a_off (rebase l b)) m /\
  0 <= a_off (rebase l a) /\ a_off (rebase l a) + n <= total l.
Proof. exact reached_apart. Qed.
Print Assumptions C24_reached_messages_do_not_overlap.
Example C24_reached_example :
  let l := [Msg (sh 1 0) 8; Mem memcpy (sh 0 0) (sh 1 0) 8] in reached l (sh 1 0) 8 /\ reached l (sh 0 0) 8.
Proof.
  intros l. split; (split; [split; [reflexivity|discriminate]|split; [discriminate|]]).
  - exists (sh 1 0), 8. repeat split; try discriminate; try reflexivity.
    exists memcpy, (sh 0 0), (sh 1 0). split; [right; now left|now right].
  - exists (sh 0 0), 8. repeat split; try discriminate; try reflexivity.
    exists memcpy, (sh 0 0), (sh 1 0). split; [right; now left|now left].
Qed.

(* Messages are not counted: a receive bigger than the copies from its buffer
   runs into the next buffer. *)
Theorem C24_messages_counted_refuted :
  exists l a n b m, non_negative l /\ In (Msg a n) l /\ accessed l b m /\ numbered a /\ numbered b /\
  a_num a <> a_num b /\ ~ apart (a_off (rebase l a)) n (a_off (rebase l b)) m.
Proof.
  exists [Msg (sh 1 0) 100; Mem memcpy (sh 0 0) (sh 1 0) 8; Mem memcpy (sh 0 0) (sh 2 0) 8], (sh 1 0), 100, (sh 2 0), 8.
  split; [|split; [|split; [|split; [|split; [|split]]]]].
  - intros a n (t & d & s & [E|[E|[E|[]]]] & [->| ->]); inversion E; subst; cbn; lia.
  - now left.
  - exists memcpy, (sh 0 0), (sh 2 0). split; [right; right; now left|now right].
  - split; [reflexivity|discriminate].
  - split; [reflexivity|discriminate].
  - discriminate.
  - unfold apart. vm_compute. intros [H|H]; apply H; reflexivity.
Qed.
Print Assumptions C24_messages_counted_refuted.

(* Accesses without buffer number may hit numbered buffers. *)
Theorem C24_direct_access_apart_refuted :
  exists l a n b m, non_negative l /\ accessed l a n /\ accessed l b m /\ a_is a = false /\ a_shmem a = true /\
  numbered b /\ 0 < a_num b /\ ~ apart (a_off (rebase l a)) n (a_off (rebase l b)) m.
Proof.
  exists [Mem memcpy (direct 64) (Addr false false 0 0) 8; Mem memcpy (sh 0 0) (sh 1 0) 8], (direct 64), 8, (sh 1 0), 8.
  split; [|split; [|split; [|split; [|split; [|split; [|split]]]]]]; try reflexivity.
  - intros a n (t & d & s & [E|[E|[]]] & [->| ->]); inversion E; subst; cbn; lia.
  - exists memcpy, (direct 64), (Addr false false 0 0). split; [now left|now left].
  - exists memcpy, (sh 0 0), (sh 1 0). split; [right; now left|now right].
  - split; [reflexivity|discriminate].
  - unfold apart. vm_compute. intros [H|H]; apply H; reflexivity.
Qed.
Print Assumptions C24_direct_access_apart_refuted.

(* One type of line keeps its buffer number although the layout was computed
   for it. *)
Theorem C24_all_rebased_refuted :
  exists l t d s n, In (Mem t d s n) (no_offset l) /\ a_is d = true.
Proof. exists [Mem sreduc_ (sh 0 0) (sh 1 0) 8], sreduc_, (sh 0 0), (sh 1 0), 8. split; [now left|reflexivity]. Qed.
Print Assumptions C24_all_rebased_refuted.
