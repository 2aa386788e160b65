(* Claims C30, C36, C37: programs executed with other buffers and counts. *)
From Verif Require PrimeModel.
From Verif Require Import Base BytecodeModel BytecodeSpec RebindModel RebindSpec RebindProofs.
Local Open Scope Z_scope.

(* ----- C30 ----- *)
(* A program made of whole units (ts * pf bytes) runs, after normalisation, on the
   scaled positions of the buffers of the call, cut at the end of the vector. *)
Theorem C30_rebound :
  forall k ts pf p, 0 < ts -> 0 < pf -> 0 <= k_count k -> Forall (whole_units k (ts * pf) ts) p ->
  exists p', normalize_blocking (ts * pf) p = Some p' /\ exec_blocking k None 0 p' = Some (map (moved k (ts * pf) ts) p).
Proof. exact program_moved. Qed.
Print Assumptions C30_rebound.

(* ... never beyond the end of the user's vector ... *)
Theorem C30_inside :
  forall k d a m, 0 < d -> 0 <= k_count k -> user a -> 0 <= m ->
  room k d a m = 0 \/ buffer_of k a <= place k d a /\ place k d a + room k d a m <= buffer_of k a + k_io k.
Proof. exact room_bound. Qed.
Print Assumptions C30_inside.

(* ... and byte x of the user's vector is touched by an operand if and only if the
   compiled operand touches its unit. *)
Theorem C30_covered :
  forall k d a n x, 0 < d -> 0 < k_count k -> operand_ok k d a n -> user a -> 0 <= x ->
  (scaled k d (offset a) <= x < scaled k d (offset a) + room k d a (scaled k d n) <->
   x < k_io k /\ offset a <= x / k_count k * d < offset a + n).
Proof. exact coverage. Qed.
Print Assumptions C30_covered.

(* No element is cut in two. *)
Theorem C30_whole_elements :
  forall k d a n ts, (ts | k_count k) -> (ts | k_io k) -> (ts | n) -> (ts | room k d a n).
Proof. exact room_whole. Qed.
Print Assumptions C30_whole_elements.

(* The factor of an allreduce call: every byte of the user's vector has a unit in
   the compiled vector of j elements. *)
Theorem C30_allreduce_factor :
  forall j pf ts count, 0 < pf -> (pf | j) -> 0 < j -> 0 < ts -> 1 <= count ->
  let c := allreduce_factor j pf count ts in
  0 < c /\ (ts | c) /\ forall x, 0 <= x < count * ts -> 0 <= x / c * (ts * pf) < j * ts.
Proof. exact factor_covers. Qed.
Print Assumptions C30_allreduce_factor.

(* The padding factor divides byte positions and numbers of elements alike; the
   program is divided by its product with the size of an element.  This is right if
   what divides all reductions, times the element, divides the rest ... *)
Definition byte_numbers (ts : Z) (i : instr) : list Z :=
  match i with
  | Memcpy a b n => [n; offset a; offset b] | Irecv a n _ _ | Isend a n _ _ => [n; offset a]
  | Reduce _ a b n => [n * ts; offset a; offset b] | _ => []
  end.
Theorem C30_padding :
  forall ts pf p, (forall x, In x (flat_map padding_numbers p) -> (pf | x)) ->
  (forall m, (forall op a b n, In (Reduce op a b n) p -> (m | n)) -> forall i x, In i p -> In x (byte_numbers ts i) -> (ts * m | x)) ->
  forall i x, In i p -> In x (byte_numbers ts i) -> (ts * pf | x).
Proof.
  intros ts pf p D H. apply H. intros op a b n I. apply D. apply in_flat_map. exists (Reduce op a b n).
  split; [exact I|]. left. reflexivity.
Qed.
Print Assumptions C30_padding.
(* ... and wrong otherwise: one element copied at position 1, two elements reduced. *)
Definition ex_bad : list instr := [Memcpy (9 * 2 ^ 28 + 8) 8 8; Reduce 2 0 16 2; Return].
Theorem C30_padding_refuted :
  PrimeModel.prime_factor_padding (map Z.to_nat (flat_map padding_numbers ex_bad)) = 2%nat /\
  ~ (8 * 2 | offset (9 * 2 ^ 28 + 8)) /\
  normalize_blocking 16 ex_bad = Some [Memcpy (9 * 2 ^ 28) 0 0; Reduce 2 0 1 1; Return].
Proof.
  split; [vm_compute; reflexivity|]. split; [|vm_compute; reflexivity].
  change (offset (9 * 2 ^ 28 + 8)) with 8. intros [z Hz]. lia.
Qed.
Print Assumptions C30_padding_refuted.

(* Messages: clipped with the address of the receiver, what is sent fits into what
   was posted ... *)
Theorem C30_sent_fits :
  forall k k' ts pf f at_ a b n r q, 0 < ts -> 0 < pf -> 0 <= k_count k ->
  operand_ok k (ts * pf) a n -> operand_ok k (ts * pf) b n -> k_count k' = k_count k -> k_io k' = k_io k ->
  f at_ = normalize_address (ts * pf) b -> f at_ <> 0 ->
  exists m, rebind k (Some f) at_ (Isend (normalize_address (ts * pf) a) (Z.quot n (ts * pf)) r q) = Some (Isend (place k (ts * pf) a) m r q, S at_) /\
    m <= room k' (ts * pf) b (scaled k' (ts * pf) n).
Proof. exact sent_fits. Qed.
Print Assumptions C30_sent_fits.
(* ... but a receiver at the very beginning of the first shared segment has the
   address 0, which is taken for "none": from there on no message is clipped. *)
Theorem C30_null_pointer_refuted :
  (forall k f at_ p, f at_ = 0 -> exec_blocking k (Some f) at_ p = exec_blocking k None at_ p) /\
  exists k f p, (* sent to shared segment 0 and to the receive buffer; 3 of 4 elements are in use *)
    f 0%nat = normalize_address 8 0 /\ f 1%nat = normalize_address 8 (9 * 2 ^ 28) /\
    exec_blocking k (Some f) 0 p = Some [Isend 1000 32 1 0; Isend 1000 32 1 8] /\
    room k 8 (9 * 2 ^ 28) 32 = 24.
Proof.
  split; [exact null_pointer|].
  exists {| k_send := 5000; k_recv := 6000; k_shmem := [1000]; k_count := 8; k_io := 24; k_op := 2 |}.
  exists (fun i => match i with O => 0 | _ => 9 * 2 ^ 28 end). exists [Isend 0 4 1 0; Isend 0 4 1 8].
  repeat split; vm_compute; reflexivity.
Qed.
Print Assumptions C30_null_pointer_refuted.

(* reduce_scatter_block: the blocks of the ranks (num_cores elements when compiled) lie
   where they should if and only if there is one core per node. *)
Theorem C30_reduce_scatter_refuted :
  forall k nc b m, 1 <= nc -> 0 < b -> b * nc * 8 < 2 ^ 28 -> 0 < m -> k_count k = reduce_scatter_factor nc (nc * m) ->
  exists n, recalculate_address_io k (normalize_address (8 * nc) (SEND * seg + b * nc * 8)) 0 = Some (k_send k + b * m, n) /\
  (b * m = b * (nc * m) <-> nc = 1).
Proof.
  intros k nc b m N B S M C.
  assert (Sg : segment (SEND * seg + b * nc * 8) = 8).
  { unfold segment, SEND, seg. rewrite Z.add_comm, Z.div_add by lia. rewrite Z.div_small by nia. reflexivity. }
  assert (Of : offset (SEND * seg + b * nc * 8) = b * (8 * nc)).
  { unfold offset, SEND, seg. rewrite Z.add_comm, Z.mod_add by lia. rewrite Z.mod_small by nia. ring. }
  rewrite (recalculate_ok k (8 * nc)); [|lia|unfold SEND, seg; nia|left; left; exact Sg|lia].
  unfold place, buffer_of, scaled. rewrite Sg, Of, C. unfold reduce_scatter_factor. cbn [Z.eqb Pos.eqb].
  rewrite Z.div_mul by lia. replace (nc * m / nc) with m by (rewrite Z.mul_comm, Z.div_mul; lia).
  eexists; split; [reflexivity|]. split; intros H; [nia|subst; lia].
Qed.
Print Assumptions C30_reduce_scatter_refuted.
(* allgather: with two or more cores per node the copy of the own block (one element
   when compiled) is empty. *)
Theorem C30_allgather_refuted :
  forall nc a b, 2 <= nc -> exists a' b', normalize_instr (8 * nc) (Memcpy a b 8) = Some (Memcpy a' b' 0).
Proof.
  intros nc a b N. cbn [normalize_instr]. rewrite Z.quot_small by lia. eexists; eexists; reflexivity.
Qed.
Print Assumptions C30_allgather_refuted.
(* MPI_IN_PLACE is not recognised (ext_mpi_interface.c:363-381): the data are read at
   the address MPI_IN_PLACE. *)
Theorem C30_in_place_refuted :
  forall k d a n, 0 < d -> 0 <= a -> segment a = 8 -> 0 <= n ->
  exists m, recalculate_address_io k (normalize_address d a) n = Some (k_send k + scaled k d (offset a), m).
Proof.
  intros k d a n D A S N. rewrite (recalculate_ok k d a n D A); [|left; left; exact S|exact N].
  unfold place, buffer_of. rewrite S. eexists; reflexivity.
Qed.
Print Assumptions C30_in_place_refuted.

Definition ex_call := {| k_send := 5000; k_recv := 6000; k_shmem := [1000]; k_count := 16; k_io := 56; k_op := 4 |}.
(* compiled: 4 elements of 8 bytes; called: 14 of 4 bytes, a unit is 4 of them *)
Definition ex_prog := [Memcpy 0 (8 * 2 ^ 28) 32; Irecv 32 16 1 700; Waitall 1 700; Reduce 2 16 32 2; Memcpy (9 * 2 ^ 28) 0 32; Return].
Example C30_example : Forall (whole_units ex_call (8 * 1) 8) ex_prog /\
  map (moved ex_call (8 * 1) 8) ex_prog =
    [Memcpy 1000 5000 56; Irecv 1064 32 1 700; Waitall 1 700; Reduce 4 1032 1064 8; Memcpy 6000 1000 56; Return] /\
  allreduce_factor 4 1 14 4 = 16.
Proof.
  split; [|split; vm_compute; reflexivity].
  repeat match goal with |- Forall _ _ => constructor end; cbn [whole_units]; try exact I; unfold operand_ok, known, user;
    repeat match goal with
           | |- _ /\ _ => split
           | |- (_ | offset ?x) => let y := eval vm_compute in (offset x / 8) in exists y; vm_compute; reflexivity
           | |- (_ | ?x) => let y := eval vm_compute in (x / 8) in exists y; vm_compute; reflexivity
           end; try reflexivity; try lia.
  all: try (right; vm_compute; split; [discriminate|reflexivity]).
  all: left; first [left; reflexivity|right; reflexivity].
Qed.

(* ----- C36 ----- *)
(* The address of a posted receive, sent from the variable p1, may arrive as the
   address of the requests: p1 is assigned again before the request is waited for. *)
Theorem C36_variable_reused_refuted :
  forall count p1 a n r q p2 n' q' p3, (forall m x, ~ In (Waitall m x) p2) ->
  deliverable count (p1 ++ Irecv a n r q :: p2 ++ Waitall n' q' :: p3) (length p1) q'.
Proof.
  intros count p1 a n r q p2 n' q' p3 N. unfold deliverable. rewrite nth_error_app2, Nat.sub_diag by lia. cbn [nth_error]. right.
  replace (skipn (S (length p1)) (p1 ++ Irecv a n r q :: p2 ++ Waitall n' q' :: p3)) with (p2 ++ Waitall n' q' :: p3).
  2: { replace (S (length p1)) with (length (p1 ++ [Irecv a n r q])) by (rewrite app_length; cbn; lia).
       change (p1 ++ Irecv a n r q :: p2 ++ Waitall n' q' :: p3) with (p1 ++ [Irecv a n r q] ++ p2 ++ Waitall n' q' :: p3).
       rewrite app_assoc, skipn_app, skipn_all, Nat.sub_diag. reflexivity. }
  assert (U : until_wait (p2 ++ Waitall n' q' :: p3) = p2 ++ [Waitall n' q']).
  { induction p2 as [|i p2 IH]; [reflexivity|].
    assert (IH' : until_wait (p2 ++ Waitall n' q' :: p3) = p2 ++ [Waitall n' q']) by (apply IH; intros m x I; apply (N m x); right; exact I).
    destruct i; cbn [app until_wait]; rewrite ?IH'; try reflexivity. exfalso. apply (N count0 requests). left. reflexivity. }
  rewrite U, flat_map_app. apply in_or_app. right. left. reflexivity.
Qed.
Print Assumptions C36_variable_reused_refuted.
Example C36_example : exists p, nth_error p 0 = Some (Irecv 64 8 1 700) /\
  deliverable 8 p 0 (normalize_address 8 64) /\ deliverable 8 p 0 700 /\ normalize_address 8 64 <> 700.
Proof.
  exists [Irecv 64 8 1 700; Waitall 1 700; Return]. split; [reflexivity|].
  split; [left; reflexivity|]. split; [right; left; reflexivity|]. vm_compute. discriminate.
Qed.

(* ----- C37 ----- *)
(* The class of a call: the first that is large enough, otherwise the last. *)
Theorem C37_class :
  forall sizes ccount, sizes <> [] ->
  let r := select_class sizes ccount 0 in
  (r < length sizes)%nat /\ (forall k, (k < r)%nat -> nth k sizes 0 < ccount) /\
  ((S r < length sizes)%nat -> ccount <= nth r sizes 0).
Proof.
  intros sizes ccount N. destruct (select_ok sizes ccount 0 N) as (A & B & C). cbv zeta in *.
  rewrite Nat.sub_0_r in C. split; [lia|]. split.
  - intros k Hk. assert (X := B k ltac:(lia)). rewrite Nat.sub_0_r in X. exact X.
  - intros Hr. apply C. lia.
Qed.
Print Assumptions C37_class.
(* The compiled vector should be a multiple of the number of nodes (all messages of
   one size): "count % mpi_size / num_cores" is not "count % (mpi_size / num_cores)". *)
Theorem C37_compiled_count_refuted :
  exists mpi_size num_cores count, 0 < num_cores /\ (num_cores | mpi_size) /\ 0 < count /\
  ~ (mpi_size / num_cores | compiled_count mpi_size num_cores count).
Proof.
  exists 48, 12, 53. split; [lia|]. split; [exists 4; reflexivity|]. split; [lia|].
  replace (compiled_count 48 12 53) with 53 by (vm_compute; reflexivity). change (48 / 12) with 4. intros [z Hz]. lia.
Qed.
Print Assumptions C37_compiled_count_refuted.
Theorem C37_compiled_count_partial :
  forall mpi_size num_cores count, 0 < num_cores -> (num_cores | mpi_size) -> 0 < mpi_size -> 0 < count ->
  count <= mpi_size / num_cores \/ num_cores = 1 \/ (mpi_size / num_cores | count) ->
  (mpi_size / num_cores | compiled_count mpi_size num_cores count).
Proof.
  intros m c n C [q ->] M N H. rewrite Z.div_mul in * by lia. unfold compiled_count. rewrite Z.div_mul by lia.
  destruct ((n <? q) && (q mod n =? 0)); [apply Z.divide_refl|].
  destruct (Z.ltb_spec q n); cbn [andb]; [|apply Z.divide_mul_l, Z.divide_refl].
  destruct (Z.eqb_spec (n mod (q * c) / c) 0) as [E|E]; [|apply Z.divide_mul_l, Z.divide_refl].
  destruct H as [H|[H|H]]; [lia| |exact H]. subst c. rewrite Z.div_1_r, Z.mul_1_r in E. apply Z.mod_divide; [lia|exact E].
Qed.
Print Assumptions C37_compiled_count_partial.
Example C37_example : select_class [8; 32; 128] 33 0 = 2%nat /\ select_class [8; 32; 128] 1000 0 = 2%nat /\ compiled_count 48 12 8 = 8.
Proof. repeat split; vm_compute; reflexivity. Qed.
