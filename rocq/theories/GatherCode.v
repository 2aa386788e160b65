(* What the passes make of the code of allgather. *)
From Verif Require Import Base SchedModel SchedSpec RawModel MsgProofs PhaseProofs RawCode RawStage RawProofs RawEnd RawInst
  FinalModel FinalSpec FinalPass FinalMerge FinalShape FinalBlock FinalSim GatherFinalModel GatherSim.
Local Ltac Zify.zify_post_hook ::= idtac.

(* ---------- merge ---------- *)
Lemma merge_pre x n r : merge (Barrier :: Memcpy (Shm 0, x) (Sendbuf, 0) n :: Barrier :: r) = Barrier :: Memcpy (Shm 0, x) (Sendbuf, 0) n :: Barrier :: merge r.
Proof.
  rewrite merge_other by reflexivity. f_equal. rewrite (merge_copy _ (Copy false (Shm 0, x) (Sendbuf, 0) n)) by reflexivity.
  unfold merge_step. cbn [forward copy_of]. rewrite Nat.eqb_refl. cbn [backward copy_of fst snd dst src size red line_of].
  reflexivity.
Qed.
Lemma merge_direct es post : forall f, Forall (fun e => reds e = []) es -> merge (directs f es ++ post) = directs f es ++ merge post.
Proof.
  intros f H. apply merge_others. revert f. induction H as [|e es E H IH]; intros f; cbn [directs]; [repeat constructor|].
  apply Forall_app. split; [|apply IH]. unfold direct. rewrite E. repeat (apply Forall_app; split).
  - destruct f; repeat constructor.
  - apply Forall_forall; intros i I; apply in_map_iff in I; destruct I as (? & <- & _); reflexivity.
  - apply Forall_forall; intros i I; apply in_map_iff in I; destruct I as (? & <- & _); reflexivity.
  - repeat constructor.
Qed.
(* the copies out of the shared memory are one copy *)
Definition out_line (mc : nat -> nat) (f : nat) : instr := Memcpy (Recvbuf, moffset mc f) (Shm 0, moffset mc f) (mc f).
Lemma forward_out mc k : forall a, 0 < moffset mc a ->
  forward (Copy false (Recvbuf, 0) (Shm 0, 0) (moffset mc a)) (map (out_line mc) (seq a k)) = (Copy false (Recvbuf, 0) (Shm 0, 0) (moffset mc (a + k)), []).
Proof.
  induction k as [|k IH]; intros a P; cbn [seq map forward]; [now rewrite Nat.add_0_r|].
  cbn [out_line copy_of alike red dst src size fst snd is_shm Bool.eqb andb Nat.add]. rewrite !Nat.eqb_refl.
  destruct (Nat.eqb_spec 0 (moffset mc a)); [lia|]. cbn [negb andb]. rewrite <- moffset_S, Nat.add_succ_r. apply (IH (S a)).
  rewrite moffset_S. lia.
Qed.
Lemma merge_out mc N : 0 < N -> 0 < mc 0 -> merge (map (out_line mc) (seq 0 N)) = [Memcpy (Recvbuf, 0) (Shm 0, 0) (moffset mc N)].
Proof.
  intros HN P. destruct N as [|k]; [lia|]. cbn [seq map]. rewrite (merge_copy _ (Copy false (Recvbuf, 0) (Shm 0, 0) (moffset mc 1))).
  2: { cbn [out_line copy_of]. rewrite moffset_S. reflexivity. }
  unfold merge_step. rewrite forward_out by (rewrite moffset_S; lia). cbn [length].
  destruct k as [|k].
  - reflexivity.
  - rewrite map_length, seq_length. cbn [Nat.eqb fst snd line_of red dst src size]. reflexivity.
Qed.

(* ---------- use_recvbuf ---------- *)
Lemma copied_other l r : Forall (fun i => match i with Memcpy d _ _ => is_recvbuf d = false | _ => True end) l ->
  forall t, GatherFinalModel.copied_out t (l ++ r) = GatherFinalModel.copied_out t r.
Proof. induction 1 as [|i l Hi Hl IH]; intros t; [reflexivity|]. destruct i; cbn [app GatherFinalModel.copied_out]; auto. rewrite Hi. cbn [andb]. auto. Qed.
Lemma recv_place_in total x n : x + n <= total -> recv_place total (sm x) n = (Recvbuf, x).
Proof. intros H. unfold recv_place, sm. cbn [is_shm fst snd andb]. apply Nat.leb_le in H. now rewrite H. Qed.
Lemma recv_ins total ts : (forall t, In t ts -> mplace t + msize t <= total) -> flat_map (recv_line total) (map direct_in ts) = map user_in ts.
Proof.
  induction ts as [|t ts IH]; intros H; [reflexivity|]. cbn [map flat_map]. rewrite IH by (intros; apply H; now right).
  unfold direct_in at 1. cbn [recv_line app]. rewrite recv_place_in by (apply H; now left). reflexivity.
Qed.
Lemma recv_outs total us : (forall u, In u us -> mplace (fst u) + msize (fst u) <= total) -> flat_map (recv_line total) (map direct_out us) = map user_out us.
Proof.
  induction us as [|u us IH]; intros H; [reflexivity|]. cbn [map flat_map]. rewrite IH by (intros; apply H; now right).
  unfold direct_out at 1. cbn [recv_line app]. rewrite recv_place_in by (apply H; now left). reflexivity.
Qed.
Definition user_code (e : exch) : list instr := map user_in (ins e) ++ map user_out (outs e) ++ [Waitall].
Lemma recv_directs total es : Forall (fun e => reds e = []) es ->
  Forall (fun e => (forall t, In t (ins e) -> mplace t + msize t <= total) /\ (forall u, In u (outs e) -> mplace (fst u) + msize (fst u) <= total)) es ->
  forall f, no_socket_barriers (flat_map (recv_line total) (directs f es)) = flat_map user_code es.
Proof.
  induction 1 as [|e es E H IH]; intros P f; [reflexivity|]. inversion_clear P as [|? ? [P1 P2] PS]. cbn [directs flat_map].
  rewrite flat_map_app, nb_app, IH by auto. f_equal. unfold direct. rewrite !flat_map_app, !nb_app, recv_ins, recv_outs, E by auto.
  assert (B : no_socket_barriers (flat_map (recv_line total) (bar f)) = []) by now destruct f. rewrite B. unfold user_code. cbn [app].
  assert (NI : no_socket_barriers (map user_in (ins e)) = map user_in (ins e)) by (induction (ins e) as [|t ts IHt]; cbn; auto; unfold no_socket_barriers in *; rewrite IHt; auto; intros; apply P1; now right).
  assert (NO : no_socket_barriers (map user_out (outs e)) = map user_out (outs e)) by (induction (outs e) as [|t ts IHt]; cbn; auto; unfold no_socket_barriers in *; rewrite IHt; auto; intros; apply P2; now right).
  rewrite NI, NO. reflexivity.
Qed.

(* ---------- swap_copyin ---------- *)
Lemma from_outs us : all_some (map from_sendbuf (map user_out us)) = Some (map own_out us).
Proof. induction us as [|u us IH]; [reflexivity|]. cbn [map all_some user_out from_sendbuf]. now rewrite IH. Qed.
Lemma firstn_exact {A} (l r : list A) k : length l = k -> firstn k (l ++ r) = l.
Proof. intros <-. rewrite firstn_app, firstn_all, Nat.sub_diag. apply app_nil_r. Qed.
Lemma skipn_exact {A} (l r : list A) k : length l = k -> skipn k (l ++ r) = r.
Proof. intros <-. rewrite skipn_app, skipn_all, Nat.sub_diag. reflexivity. Qed.
Lemma swap_outs i (ts : list msg) us k rest : length ts = k -> length us = k ->
  swap_copyin k (i :: map user_in ts ++ map user_out us ++ rest) = Some (map user_in ts ++ map own_out us ++ i :: rest).
Proof.
  intros E1 E2. unfold swap_copyin. rewrite !app_length, !map_length.
  destruct (Nat.ltb_spec (length ts + (length us + length rest)) (2 * k)); [lia|].
  rewrite (skipn_exact (map user_in ts)), (firstn_exact (map user_out us)), from_outs, (firstn_exact (map user_in ts)) by (rewrite map_length; assumption).
  assert (E : skipn (2 * k) (map user_in ts ++ map user_out us ++ rest) = rest) by (rewrite app_assoc; apply skipn_exact; rewrite app_length, !map_length; lia).
  now rewrite E.
Qed.

(* ---------- all together ---------- *)
Lemma passes_program base alt ls x n mc N es : 0 < n -> 0 < N -> (forall f, f < N -> 0 < mc f) -> x + n <= moffset mc N ->
  (forall k, base k <= base (S k)) -> x < base 1 ->
  map (flat_instr base) ls = [Barrier; Memcpy (Shm 0, x) (Sendbuf, 0) n; Barrier] ++ ecodes base true es ++ map (out_line mc) (seq 0 N) ->
  Forall (shape base) es -> Forall (fun e => reds e = []) es ->
  Forall (fun e => (forall t, In t (ins e) -> mplace t + msize t <= moffset mc N) /\ (forall u, In u (outs e) -> mplace (fst u) + msize (fst u) <= moffset mc N)) es ->
  gather_passes base alt ls = Memcpy (Recvbuf, x) (Sendbuf, 0) n :: flat_map user_code es.
Proof.
  intros Hn HN P Hx MONO B1 E SH RD IN. unfold gather_passes. rewrite E.
  assert (CO : Forall FinalPass.copied_out (map (out_line mc) (seq 0 N))).
  { apply Forall_forall. intros i I. apply in_map_iff in I. destruct I as (f & <- & _). exact Logic.I. }
  rewrite optimise_program by (auto; repeat constructor; exact B1).
  assert (SZ : Forall sized ([Barrier; Memcpy (Shm 0, x) (Sendbuf, 0) n; Barrier] ++ directs true es ++ map (out_line mc) (seq 0 N))).
  { repeat (apply Forall_app; split).
    - repeat constructor. exact Hn.
    - clear - RD. generalize true. induction RD as [|e es He Hes IH]; intros f; cbn [directs].
      + repeat constructor.
      + apply Forall_app. split; [|apply IH]. unfold direct. rewrite He. repeat (apply Forall_app; split).
        * destruct f; repeat constructor.
        * apply Forall_forall; intros i I; apply in_map_iff in I; destruct I as (? & <- & _); exact I.
        * apply Forall_forall; intros i I; apply in_map_iff in I; destruct I as (? & <- & _); exact I.
        * repeat constructor.
    - apply Forall_forall. intros i I. apply in_map_iff in I. destruct I as (f & <- & I). apply in_seq in I. cbn [out_line sized]. apply P. lia. }
  rewrite parallel_memcpy_id by exact SZ. cbn [app]. rewrite merge_pre, merge_direct, merge_out by auto.
  assert (BAR : forall l, no_socket_barriers (clean_barriers (if alt then no_first_barrier l else l)) = no_socket_barriers l).
  { intros l. unfold clean_barriers. rewrite clean_no. destruct alt; [apply first_no|reflexivity]. }
  rewrite BAR. unfold use_recvbuf.
  assert (TT : GatherFinalModel.copied_out 0 (Barrier :: Memcpy (Shm 0, x) (Sendbuf, 0) n :: Barrier :: directs true es ++ [Memcpy (Recvbuf, 0) (Shm 0, 0) (moffset mc N)]) = moffset mc N).
  { cbn [GatherFinalModel.copied_out is_recvbuf fst andb]. rewrite copied_other.
    - cbn [GatherFinalModel.copied_out is_recvbuf fst snd andb Nat.add]. destruct (Nat.ltb_spec 0 (moffset mc N)); lia.
    - clear - RD. generalize true. induction RD as [|e es He Hes IH]; intros f; cbn [directs].
      + repeat constructor.
      + apply Forall_app. split; [|apply IH]. unfold direct. rewrite He. repeat (apply Forall_app; split).
        * destruct f; repeat constructor.
        * apply Forall_forall; intros i I; apply in_map_iff in I; destruct I as (? & <- & _); exact I.
        * apply Forall_forall; intros i I; apply in_map_iff in I; destruct I as (? & <- & _); exact I.
        * repeat constructor. }
  rewrite TT. cbn [flat_map recv_line app is_recvbuf fst]. change (Shm 0, x) with (sm x). rewrite recv_place_in by exact Hx.
  unfold recv_place at 1. cbn [is_shm fst andb]. rewrite flat_map_app. cbn [flat_map recv_line app is_recvbuf fst]. rewrite app_nil_r.
  change (no_socket_barriers (Barrier :: ?i :: Barrier :: ?l)) with (no_socket_barriers ([Barrier; i; Barrier] ++ l)).
  rewrite nb_app, recv_directs by auto. reflexivity.
Qed.

Section Code.
  Context (N : nat) (alg : nat -> list block) (nb : nat) (mc : nat -> nat) (pre post : nat -> list instr).
  Local Notation size_of := (mmsizes mc N).
  Local Notation blk m := (fun q => nth m (alg q) empty_block).
  Context (HN : 0 < N) (Hb : 2 <= nb) (POS : forall f, f < N -> 0 < mc f).
  Context (NE : forall m, 1 <= m < nb -> neat N (blk m)) (WM : forall m, 1 <= m < nb -> well_matched N (blk m)).
  Context (LAY : forall m q n, 1 <= m < nb -> q < N -> n < num_lines (blk m q) -> frac (lines (blk m q) n) = n mod N).
  Context (Qpre : forall q, q < N -> forallb quiet (pre q) = true) (Qpost : forall q, q < N -> forallb quiet (post q) = true).
  Context (S1 : forall q p, q < N -> p < N -> p <> q -> sent_lines (blk 1) q p = [] \/ sent_lines (blk 1) q p = [q]).
  Context (R1 : forall q p, q < N -> p < N -> p <> q -> ~ In q (recv_lines (blk 1) q p)).
  Context (SL : same_length N alg nb).
  Local Notation K := (nb - 1).
  Local Notation off := (off size_of (fun n => n mod N)).
  Local Notation ex m q := (exch_of size_of N q (nth m (alg q) empty_block)).
  Local Notation by_sim lem := (lem N alg nb size_of pre post HN Hb NE WM LAY Qpre Qpost S1 R1).
  Context (q : nat) (Hq : q < N) (base : nat -> nat) (B0 : base 0 = 0) (MONO : forall k, base k <= base (S k)).
  Context (FIT : Forall (fits_in base) (program N alg size_of pre post q)).
  Context (PRE : pre q = [Barrier; Memcpy (Shm 0, moffset mc q) (Sendbuf, 0) (mc q); Barrier]).
  Context (POST : post q = map (out_line mc) (seq 0 N)).

  Lemma g_total : whole N size_of = moffset mc N.
  Proof. unfold whole. now apply off_modular. Qed.
  Lemma g_offset : off q = moffset mc q.
  Proof. apply off_modular; lia. Qed.
  Lemma g_fit m first i : m < K -> In i (block_code size_of N q (blk (S m) q) first) -> fits_in base i \/ i = Barrier.
  Proof.
    intros Hm I. destruct i; auto; left; try exact Logic.I;
    (refine (proj1 (Forall_forall _ _) FIT _ _); unfold program; apply in_or_app; right; apply in_or_app; left;
     rewrite (blocks_tail N alg nb size_of pre post) by (auto; lia);
     (assert (G : forall j m0 f, m0 <= m < m0 + j -> forall i, i <> Barrier -> In i (block_code size_of N q (blk (S m) q) first) ->
       In i (blocks_code size_of N q (map (fun m => nth m (alg q) empty_block) (seq (S m0) j)) f))
      by (clear; induction j as [|j IH]; intros m0 f H i Ne I; [lia|]; cbn [seq map blocks_code]; apply in_or_app;
          destruct (Nat.eq_dec m m0) as [->|]; [left|right; apply IH; auto; lia];
          unfold block_code, post_code in *; rewrite <- !app_assoc in *; apply in_app_or in I; apply in_or_app;
          destruct I as [I|I]; [destruct first; [destruct I|destruct I as [<-|[]]; now destruct Ne]|right; exact I]));
     apply (G (nb - 1) 0 true); [lia|discriminate|exact I]).
  Qed.
  Lemma g_shapes m : m < K -> shape base (ex (S m) q).
  Proof.
    intros Hm. assert (FB := g_fit m true). unfold block_code, post_code, after_code in FB. cbn [app] in FB.
    assert (NS : no_self q (blk (S m) q)) by (apply (by_sim g_self); auto).
    constructor.
    - intros u ps I. apply (out_pieces size_of N q (blk (S m) q) u ps I).
    - assert (R : forall i, In i (receives size_of N q (blk (S m) q) (seq 0 N) 1) -> fits_in base i \/ i = Barrier).
      { intros i I. apply FB; auto. apply in_or_app. left. apply in_or_app. left. exact I. }
      unfold exch_of. cbn [ins]. clear FB PRE POST FIT. revert R. generalize 1 as c. induction (seq 0 N) as [|o os IH]; intros c R; [exact I|].
      cbn [receives flat_map] in *. unfold in_of at 1. destruct (Nat.eqb_spec (recv_size size_of q (blk (S m) q) (from_node N q o)) 0) as [Z|Z]; cbv beta in *.
      + cbn [app]. apply IH. exact R.
      + cbn [app spaced msize]. split; [lia|]. split.
        * destruct (R _ (or_introl eq_refl)) as [X|X]; [|discriminate]. cbn [fits_in room_for fst snd] in X. lia.
        * apply IH. intros i I. apply R. now right.
    - intros t I. apply in_ins in I; auto. destruct I as (p & Hp & Z & ->). cbn [mplace].
      assert (R : forall i, In i (unpacks size_of N q (blk (S m) q) (seq 0 N) 1) -> fits_in base i \/ i = Barrier).
      { intros i I. apply FB; auto. apply in_or_app. right. right. right. apply in_or_app. left. exact I. }
      assert (IP : In p (map (from_node N q) (seq 0 N))) by (apply from_all; auto).
      assert (X : exists c, In (Memcpy (Shm 0, first_start size_of q (blk (S m) q) p (seq 0 (num_lines (blk (S m) q))) 0) (Shm c, 0) (recv_size size_of q (blk (S m) q) p))
        (unpacks size_of N q (blk (S m) q) (seq 0 N) 1)).
      { clear R FB PRE POST FIT. revert IP. generalize 1 as c. induction (seq 0 N) as [|o os IH]; intros c IP; [destruct IP|]. cbn [map] in IP.
        rewrite unpacks_cons by exact NS. destruct IP as [E|IP].
        - rewrite E. apply Nat.eqb_neq in Z. cbv beta in *. rewrite Z. exists c. now left.
        - destruct (_ =? 0); [now apply IH|]. destruct (IH (S c) IP) as (c' & I). exists c'. now right. }
      destruct X as (c & X). destruct (R _ X) as [Y|Y]; [|discriminate]. cbn [fits_in room_for fst snd] in Y. cbv beta in *. lia.
    - apply reduces_reduce.
  Qed.
  Lemma g_code : map (flat_instr base) (program N alg size_of pre post q) = pre q ++ ecodes base true (map (fun m => ex m q) (seq 1 K)) ++ post q.
  Proof.
    unfold program. rewrite !map_app. f_equal; [|f_equal].
    - rewrite PRE. cbn [map flat_instr flat fst snd]. now rewrite B0.
    - rewrite (blocks_tail N alg nb size_of pre post) by (auto; lia).
      assert (G : forall j m f, m + j <= K -> map (flat_instr base) (blocks_code size_of N q (map (fun m => nth m (alg q) empty_block) (seq (S m) j)) f) =
        ecodes base f (map (fun m => ex m q) (seq (S m) j))).
      { induction j as [|j IH]; intros m f Hj; [reflexivity|]. cbn [seq map blocks_code ecodes]. rewrite map_app, IH by lia. f_equal.
        apply block_shape; auto.
        - intros o. apply (by_sim g_contiguous m q o); auto; lia.
        - apply (by_sim g_self m q); auto; lia.
        - apply (by_sim g_nocopy m q); auto; lia. }
      apply G. lia.
    - rewrite POST, map_map. apply map_ext. intros f. cbn [out_line flat_instr flat fst snd]. now rewrite B0.
  Qed.
  Lemma g_nored_ex m : m < K -> reds (ex (S m) q) = [].
  Proof. intros Hm. apply (by_sim g_nored); auto. Qed.
  Lemma g_inside m : m < K -> (forall t, In t (ins (ex (S m) q)) -> mplace t + msize t <= moffset mc N) /\ (forall u, In u (outs (ex (S m) q)) -> mplace (fst u) + msize (fst u) <= moffset mc N).
  Proof.
    intros Hm. rewrite <- g_total. split.
    - intros t I. apply in_ins in I; auto. destruct I as (p & Hp & Z & ->). cbn [mplace msize]. cbv beta in *.
      destruct (by_sim grecv m q p Hm Hq Hp Z) as (_ & a & k & _ & E1 & E2 & E3 & E4). cbv beta in *. rewrite E1, E2. lia.
    - intros u I. apply in_outs in I; auto. destruct I as (p & Hp & Z & ->). cbn [fst mplace msize]. cbv beta in *.
      destruct (by_sim gsend m q p Hm Hq Hp Z) as (_ & a & k & _ & _ & E1 & E2 & E3 & E4). cbv beta in *. rewrite E1, E2. lia.
  Qed.
  Lemma g_passes alt : 0 < base 1 -> moffset mc q < base 1 ->
    gather_passes base alt (program N alg size_of pre post q) = Memcpy (Recvbuf, moffset mc q) (Sendbuf, 0) (mc q) :: flat_map user_code (map (fun m => ex m q) (seq 1 K)).
  Proof.
    intros B1 B2. apply passes_program with (mc := mc) (N := N); auto.
    - now apply moffset_lt.
    - rewrite g_code, PRE, POST. reflexivity.
    - apply Forall_forall. intros e I. apply in_map_iff in I. destruct I as (m & <- & I). apply in_seq in I. destruct m as [|m]; [lia|]. apply g_shapes. lia.
    - apply Forall_forall. intros e I. apply in_map_iff in I. destruct I as (m & <- & I). apply in_seq in I. destruct m as [|m]; [lia|]. apply g_nored_ex. lia.
    - apply Forall_forall. intros e I. apply in_map_iff in I. destruct I as (m & <- & I). apply in_seq in I. destruct m as [|m]; [lia|]. apply g_inside. lia.
  Qed.
  Lemma g_final alt k : 0 < base 1 -> moffset mc q < base 1 -> length (ins (ex 1 q)) = k -> length (outs (ex 1 q)) = k ->
    swap_copyin k (gather_passes base alt (program N alg size_of pre post q)) = Some (phased K (LG N alg nb size_of) q).
  Proof.
    intros B1 B2 L1 L2. rewrite g_passes by auto. replace (seq 1 K) with (1 :: seq 2 (K - 1)) by (destruct nb as [|[|n]]; try lia; cbn; now rewrite Nat.sub_0_r).
    cbn [map flat_map]. unfold user_code at 1. rewrite <- !app_assoc, swap_outs by auto. f_equal.
    unfold phased. set (LG' := LG N alg nb size_of).
    assert (G : forall j m, 1 <= m -> m + j = K -> flat_map user_code (map (fun m => ex m q) (seq (S m) j)) =
      (if m <? K then map user_in (ins (ex (S m) q)) ++ map user_out (outs (ex (S m) q)) else []) ++ rest_code K LG' m q).
    { induction j as [|j IH]; intros m M E.
      - replace m with K by lia. rewrite Nat.ltb_irrefl, rest_end. reflexivity.
      - replace (m <? K) with true by (symmetry; apply Nat.ltb_lt; lia). rewrite rest_step by lia.
        cbn [seq map flat_map]. rewrite IH by lia. unfold user_code at 1. unfold LG' at 2. unfold LG. destruct (Nat.eqb_spec (S m) 0); [lia|].
        rewrite <- !app_assoc. reflexivity. }
    rewrite (G (K - 1) 1) by lia. rewrite (rest_step K LG' 0) by lia. unfold LG' at 2 3. unfold LG. cbn [Nat.eqb].
    replace (0 <? K) with true by (symmetry; apply Nat.ltb_lt; lia). unfold own_copy. rewrite g_offset.
    replace (RawStage.sz size_of (fun n => n mod N) q) with (mc q) by (unfold RawStage.sz, mmsizes; now rewrite !Nat.mod_small by (rewrite ?Nat.mod_small; auto)).
    rewrite <- !app_assoc. cbn [app]. reflexivity.
  Qed.
End Code.
