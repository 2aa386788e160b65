(* The generated code for schedules in which a line does not hold the same
   fragment in all stages: what is behind the first line that changes is lost. *)
From Verif Require Import Base SchedModel SchedSpec RawModel MsgProofs PhaseProofs RawCode RawStage RawProofs RawEnd RawSpec LooseSpec.
Local Ltac Zify.zify_post_hook ::= idtac.

Section Loose.
  Context (N : nat) (alg : nat -> list block) (count : nat) (size_of : nat -> nat).
  Context (pre post : nat -> list instr).
  Local Notation blk m := (fun q => nth m (alg q) empty_block).
  Local Notation fr m q := (fun n => frac (lines (nth m (alg q) empty_block) n)).
  Context (Hc : 1 <= count).
  Context (WM : forall m, 1 <= m < count -> well_matched N (blk m)).
  Context (Qpre : forall q, q < N -> forallb quiet (pre q) = true) (Qpost : forall q, q < N -> forallb quiet (post q) = true).
  Context {V : Type} (op : V -> V -> V) (mem0 : nat -> @memory V) (i : nat).
  Local Notation amid := (amid N alg count size_of pre post op mem0).

  (* the lines behind stage m: what stage m makes of the memory in its layout *)
  Fixpoint states (st0 : nat -> nat -> V) (m : nat) : nat -> nat -> V :=
    match m with
    | O => st0
    | S k => stage op N (blk (S k)) (fun q n =>
        if i <? size_of (fr (S k) q n) then amid k q (Shm 0, off size_of (fr (S k) q) n + i) else states st0 k q n)
    end.

  Context (st0 : nat -> nat -> V) (S0 : forall q, q < N -> rel size_of (fr 0 q) i (st0 q) (exec_list op (pre q) (mem0 q))).
  Lemma states_rel m : m <= count - 1 -> forall q, q < N -> rel size_of (fr m q) i (states st0 m q) (amid m q).
  Proof.
    destruct m as [|m]; intros Hm q Hq.
    - exact (S0 q Hq).
    - assert (BM : 1 <= S m < count) by lia.
      cbn [states]. unfold RawProofs.amid at 2, front. cbn [Nat.eqb].
      set (st := fun q n => if i <? size_of (fr (S m) q n) then amid m q (Shm 0, off size_of (fr (S m) q) n + i) else states st0 m q n).
      apply after_rel with (F := fr (S m) q) (blk := blk (S m)) (st := st) (d := mem0 0 (Sendbuf, 0))
         (pieces := fun p => piece size_of (blk (S m) p) (amid m p)); auto.
      + intros p x Hp Hx. unfold piece. now rewrite read_mem_length.
      + intros p x Hp Hx Hi. unfold piece. rewrite read_mem_nth by exact Hi.
        unfold at_off. cbn [fst snd].
        rewrite (lstart_off size_of N (blk (S m)) p (fr (S m) p)) by (auto; lia).
        unfold st. apply Nat.ltb_lt in Hi. cbv beta. now rewrite Hi.
      + intros o Ho. now apply from_node_lt.
      + intros n Hn. rewrite (keep N alg count size_of pre post Hc WM Qpre Qpost); [|lia|auto|intros k Hk X; cbn [fst] in X; injection X; lia].
        unfold st. unfold sz in Hn. apply Nat.ltb_lt in Hn. cbv beta in Hn. now rewrite Hn.
      + intros r j I Hj. apply (arrived N alg count size_of pre post Hc WM Qpre Qpost); [lia|auto| |auto].
        rewrite (L_recvs N alg count size_of pre post); auto; lia.
  Qed.
  (* they follow the schedule *)
  Lemma states_loose : loosely op N alg count (states st0).
  Proof.
    intros m Hm. rewrite Nat.add_1_r in *. eexists. split; [|intros q n Hq; cbn [states]; reflexivity].
    intros q n Hq K. cbv beta. destruct (Nat.ltb_spec i (size_of (fr (S m) q n))) as [Hi|]; auto.
    replace (off size_of (fr (S m) q) n) with (off size_of (fr m q) n).
    - apply states_rel; auto; [lia|]. unfold sz. cbv beta. now rewrite (K n).
    - apply off_cong. intros k Hk. cbv beta. now rewrite K by lia.
  Qed.
End Loose.
