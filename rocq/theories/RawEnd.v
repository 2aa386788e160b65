(* Moving the user's data in and out, and the whole programs. *)
From Verif Require Import Base SchedModel SchedSpec RawModel MsgProofs PhaseProofs RawCode RawStage RawProofs.
Local Ltac Zify.zify_post_hook ::= idtac.

Lemma off_cong s s' F F' n : (forall k, k < n -> s (F k) = s' (F' k)) -> off s F n = off s' F' n.
Proof. intros H. unfold off. f_equal. apply map_ext_in. intros k Hk. apply in_seq in Hk. apply H. lia. Qed.

Lemma inside_pair u x n i : i < n -> inside (u, x) n (u, x + i) = true.
Proof. intros H. apply inside_spec. cbn. split; auto. lia. Qed.

Section Counts.
  Context (mcounts : nat -> nat).
  Local Notation id_ := (fun n : nat => n).
  Lemma moffset_off i : moffset mcounts i = off mcounts id_ i.
  Proof. unfold moffset. now rewrite fold_add. Qed.
  Lemma moffset_S i : moffset mcounts (S i) = moffset mcounts i + mcounts i.
  Proof. rewrite !moffset_off. apply off_S. Qed.
  Lemma moffset_lt f N : f < N -> moffset mcounts f + mcounts f <= moffset mcounts N.
  Proof. intros H. rewrite !moffset_off. apply (off_lt mcounts id_ f N H). Qed.
  (* every element belongs to a fragment *)
  Lemma moffset_cover N j : j < moffset mcounts N -> exists f i, f < N /\ i < mcounts f /\ j = moffset mcounts f + i.
  Proof.
    induction N as [|N IH]; [cbn; lia|]. rewrite moffset_S. intros H.
    destruct (le_lt_dec (moffset mcounts N) j) as [Le|Lt].
    - exists N, (j - moffset mcounts N). repeat split; lia.
    - destruct (IH Lt) as (f & i & ? & ? & ?). exists f, i. repeat split; auto.
  Qed.
End Counts.

Section Move.
  Context {V : Type} (op : V -> V -> V) (N : nat) (mcounts : nat -> nat) (b : block).
  Notation memory := (@memory V).
  Local Notation fr n := (frac (lines b n)).
  Local Notation st := (off mcounts (fun n => fr n)).
  Local Notation mo := (moffset mcounts).
  Local Notation tot := (mo N).
  Lemma st_S n : st (S n) = st n + mcounts (fr n).
  Proof. apply off_S. Qed.

  (* ---------- in, reductions ---------- *)
  Lemma copyin_lines_ok : forall k n0 (m : memory),
    (forall n, n0 <= n < n0 + k -> fr n < N) ->
    let m' := exec_list op (copyin_lines N mcounts b (seq n0 k) (st n0)) m in
    (forall a, fst a <> Shm 0 \/ snd a < st n0 -> m' a = m a) /\
    (forall n i, n0 <= n < n0 + k -> i < mcounts (fr n) -> st n + mcounts (fr n) <= tot ->
       m' (Shm 0, st n + i) = m (Sendbuf, mo (fr n) + i)).
  Proof.
    induction k as [|k IH]; intros n0 m HN; cbv zeta; [split; auto; intros; lia|].
    cbn [seq copyin_lines]. rewrite exec_list_app.
    match goal with |- context [exec_list op (if ?c then [] else ?e) m] => set (hd_ := if c then [] else e) end. rewrite <- st_S.
    destruct (IH (S n0) (exec_list op hd_ m)) as [A B]; [intros; apply HN; lia|]. cbv zeta in A, B. clear IH.
    assert (Hf : fr n0 < N) by (apply HN; lia).
    assert (HM := moffset_lt mcounts _ _ Hf).
    (* what the first line does *)
    assert (C : (forall a, fst a <> Shm 0 \/ snd a < st n0 -> exec_list op hd_ m a = m a) /\
                (forall i, i < mcounts (fr n0) -> st n0 + mcounts (fr n0) <= tot ->
                  exec_list op hd_ m (Shm 0, st n0 + i) = m (Sendbuf, mo (fr n0) + i))).
    { unfold hd_. clear A B hd_. set (add := st n0). set (size := mcounts (fr n0)) in *. set (add2 := mo (fr n0)) in *.
      destruct ((tot <=? add) || (add + size <=? 0)) eqn:E.
      - split; [reflexivity|]. intros i Hi Hl. apply orb_true_iff in E. rewrite !Nat.leb_le in E. lia.
      - apply orb_false_iff in E. rewrite !Nat.leb_gt in E. destruct E as [E1 E2].
        set (sa := if 0 <? add then tot - add else tot). set (aa := if 0 <? add then add else 0).
        assert (Ea : aa = add) by (unfold aa; destruct (Nat.ltb_spec 0 add); lia).
        assert (Es : sa = tot - add) by (unfold sa; destruct (Nat.ltb_spec 0 add); lia).
        rewrite Ea, Es. set (sz_ := if add + size <? add + (tot - add) then add + size - add else tot - add).
        assert (Ez : sz_ = Nat.min size (tot - add)) by (unfold sz_; destruct (Nat.ltb_spec (add + size) (add + (tot - add))); lia).
        replace (tot + add - add + add2) with (add2 + 1 * tot) by lia.
        replace (tot + add) with (add + 1 * tot) by lia. rewrite !Nat.mod_add by lia.
        rewrite (Nat.mod_small add) by lia.
        destruct (Nat.eqb_spec sz_ 0) as [Z|Z].
        + split; [reflexivity|]. intros; lia.
        + assert (X2 : add2 mod tot = add2) by (apply Nat.mod_small; lia). rewrite X2. cbn [exec_list fold_left exec_local]. split.
          * intros a Ha. destruct (inside _ _ _) eqn:I; auto. apply inside_spec in I. cbn in I.
            exfalso. destruct Ha as [Ha|Ha]; [apply Ha; symmetry; tauto|lia].
          * intros i Hi Hl. rewrite (inside_pair (Shm 0) add sz_ i) by lia. cbn [snd].
            unfold at_off. cbn [fst snd]. do 2 f_equal. lia. }
    destruct C as [C1 C2]. split.
    - intros a Ha. rewrite A; [now apply C1|]. destruct Ha; auto. right. rewrite st_S. lia.
    - intros n i Hn Hi Hl. destruct (Nat.eq_dec n n0) as [->|D].
      + rewrite A; [now apply C2|]. right. cbn [snd]. rewrite st_S. lia.
      + rewrite B by (auto; lia). apply C1. left. discriminate.
  Qed.
  Lemma copyin_reduce_ok (m : memory) : (forall n, n < num_lines b -> fr n < N) ->
    let m' := exec_list op (copyin_reduce N mcounts b) m in
    (forall a, fst a <> Shm 0 -> m' a = m a) /\
    (forall n i, n < num_lines b -> i < mcounts (fr n) -> st n + mcounts (fr n) <= tot ->
       m' (Shm 0, st n + i) = m (Sendbuf, mo (fr n) + i)).
  Proof.
    intros HN. destruct (copyin_lines_ok (num_lines b) 0 m) as [A B]; [intros; apply HN; lia|]. cbv zeta in *.
    change (exec_list op (copyin_reduce N mcounts b) m) with (exec_list op (copyin_lines N mcounts b (seq 0 (num_lines b)) (st 0)) m).
    split; [intros; apply A; auto|]. intros. apply B; auto. lia.
  Qed.
  Lemma copyin_quiet : forallb quiet (copyin_reduce N mcounts b) = true.
  Proof.
    unfold copyin_reduce. cbn [forallb quiet andb]. generalize 0 at 2. induction (seq 0 (num_lines b)) as [|n ns IH]; intros c; auto.
    cbn [copyin_lines]. rewrite forallb_app, IH, andb_true_r. destruct (_ || _); auto.
    match goal with |- context [if ?c then [] else _] => destruct c end; auto.
  Qed.

  (* ---------- in, allgather ---------- *)
  Lemma before_user_ok n : existsb is_user (recvfrom (lines b n)) = true -> forall k n0, n0 <= n < n0 + k ->
    (forall n', n0 <= n' < n -> existsb is_user (recvfrom (lines b n')) = false) ->
    before_user mcounts b (seq n0 k) (st n0) = st n.
  Proof.
    intros U. induction k as [|k IH]; intros n0 Hn H; [lia|]. cbn [seq before_user].
    destruct (Nat.eq_dec n0 n) as [->|D]; [now rewrite U|]. rewrite H by lia. rewrite <- st_S. apply IH; [lia|].
    intros; apply H; lia.
  Qed.
  Lemma copyin_gather_ok n c (m : memory) : n < num_lines b -> existsb is_user (recvfrom (lines b n)) = true ->
    (forall n', n' < n -> existsb is_user (recvfrom (lines b n')) = false) ->
    let m' := exec_list op (copyin_gather mcounts b c) m in
    (forall a, fst a <> Shm 0 -> m' a = m a) /\
    (forall i, i < c -> m' (Shm 0, st n + i) = m (Sendbuf, i)).
  Proof.
    intros Hn U H. unfold copyin_gather. change (before_user mcounts b (seq 0 (num_lines b)) 0) with (before_user mcounts b (seq 0 (num_lines b)) (st 0)).
    rewrite (before_user_ok n U (num_lines b) 0) by (try lia; intros; apply H; lia).
    cbv zeta. destruct (Nat.eqb_spec c 0) as [Z|Z]; cbn [app exec_list fold_left exec_local]; split; auto; try (intros; lia).
    - intros a Ha. destruct (inside _ _ _) eqn:I; auto. apply inside_spec in I. cbn in I. exfalso. apply Ha. symmetry. tauto.
    - intros i Hi. rewrite (inside_pair (Shm 0) (st n) c i) by lia. cbn [snd]. unfold at_off. cbn [fst snd]. do 2 f_equal. lia.
  Qed.
  Lemma gather_quiet c : forallb quiet (copyin_gather mcounts b c) = true.
  Proof. unfold copyin_gather. now destruct (c =? 0). Qed.

  (* ---------- out, everything ---------- *)
  Local Notation outl n := (existsb is_user (sendto (lines b n))).
  Lemma copyout_lines_ok (out : nat -> V) : forall k n0 (m : memory) (C : nat -> Prop),
    (forall n i, n0 <= n < n0 + k -> outl n = true -> i < mcounts (fr n) -> fr n < N /\ m (Shm 0, st n + i) = out (mo (fr n) + i)) ->
    (forall j, C j -> m (Recvbuf, j) = out j) ->
    let m' := exec_list op (copyout_lines mcounts b tot (seq n0 k) (st n0)) m in
    (forall a, fst a <> Recvbuf \/ tot <= snd a -> m' a = m a) /\
    (forall j, C j -> m' (Recvbuf, j) = out j) /\
    (forall n i, n0 <= n < n0 + k -> outl n = true -> i < mcounts (fr n) -> m' (Recvbuf, mo (fr n) + i) = out (mo (fr n) + i)).
  Proof.
    induction k as [|k IH]; intros n0 m C H HC; cbv zeta; [repeat split; auto; intros; lia|].
    cbn [seq copyout_lines]. rewrite exec_list_app.
    match goal with |- context [exec_list op (if ?c then ?e else []) m] => set (hd_ := if c then e else []) end. rewrite <- st_S.
    assert (X : (forall a, fst a <> Recvbuf \/ tot <= snd a -> exec_list op hd_ m a = m a) /\
                (forall j, C j -> exec_list op hd_ m (Recvbuf, j) = out j) /\
                (outl n0 = true -> forall i, i < mcounts (fr n0) -> exec_list op hd_ m (Recvbuf, mo (fr n0) + i) = out (mo (fr n0) + i))).
    { unfold hd_. destruct (outl n0) eqn:O; [|split; [reflexivity|split; [exact HC|discriminate]]].
      assert (H0 : forall i, i < mcounts (fr n0) -> fr n0 < N /\ m (Shm 0, st n0 + i) = out (mo (fr n0) + i)) by (intros; apply H; auto; lia).
      clear H IH hd_. unfold overlapp. rewrite moffset_S. revert H0. generalize (fr n0) (st n0). intros f x H.
      replace (if 0 <? mo f then mo f else 0) with (mo f) by (destruct (Nat.ltb_spec 0 (mo f)); lia).
      destruct (Nat.eq_dec (mcounts f) 0) as [Z|Z].
      - rewrite Z, Nat.add_0_r. replace (_ - mo f =? 0) with true.
        2:{ symmetry. apply Nat.eqb_eq. destruct (Nat.ltb_spec (mo f) tot); lia. }
        split; [reflexivity|]. split; [exact HC|]. intros; lia.
      - assert (Hf : f < N) by (apply (H 0); lia).
        assert (HM := moffset_lt mcounts f N Hf).
        replace (if mo f + mcounts f <? tot then mo f + mcounts f else tot) with (mo f + mcounts f) by (destruct (Nat.ltb_spec (mo f + mcounts f) tot); lia).
        replace (mo f + mcounts f - mo f) with (mcounts f) by lia.
        destruct (Nat.eqb_spec (mcounts f) 0); [lia|]. cbn [exec_list fold_left exec_local]. 
        assert (W : forall j, inside (Recvbuf, mo f) (mcounts f) (Recvbuf, j) = true -> m (at_off (Shm 0, x) (j - mo f)) = out j).
        { intros j I. apply inside_spec in I. cbn [fst snd] in I. unfold at_off. cbn [fst snd].
          destruct (H (j - mo f)) as [_ E]; [lia|]. rewrite E. f_equal. lia. }
        split; [|split].
        + intros a Ha. destruct (inside _ _ _) eqn:I; auto. apply inside_spec in I. cbn [fst snd] in I. exfalso.
          destruct Ha as [Ha|Ha]; [apply Ha; symmetry; tauto|]. lia.
        + intros j Hj. cbn [snd]. destruct (inside _ _ _) eqn:I; auto.
        + intros _ i Hi. cbn [snd]. rewrite (inside_pair Recvbuf (mo f) (mcounts f) i) by auto. apply W.
          now apply inside_pair. }
    destruct X as (X1 & X2 & X3).
    destruct (IH (S n0) (exec_list op hd_ m) (fun j => C j \/ (outl n0 = true /\ exists i, i < mcounts (fr n0) /\ j = mo (fr n0) + i))) as (A & B & D).
    - intros n i Hn O Hi. rewrite X1 by (left; discriminate). apply H; auto. lia.
    - intros j [Hj|[O (i & Hi & ->)]]; auto.
    - cbv zeta in A, B, D. repeat split.
      + intros a Ha. rewrite A by auto. now apply X1.
      + intros j Hj. apply B. now left.
      + intros n i Hn O Hi. destruct (Nat.eq_dec n n0) as [->|Ne].
        * apply B. right. split; auto. exists i. auto.
        * apply D; auto. lia.
  Qed.
  Lemma copyout_all_ok (out : nat -> V) (m : memory) :
    (forall n i, n < num_lines b -> outl n = true -> i < mcounts (fr n) -> fr n < N /\ m (Shm 0, st n + i) = out (mo (fr n) + i)) ->
    (forall f, f < N -> exists n, n < num_lines b /\ outl n = true /\ fr n = f) ->
    let m' := exec_list op (copyout_all mcounts b tot) m in
    (forall a, fst a <> Recvbuf \/ tot <= snd a -> m' a = m a) /\
    (forall j, j < tot -> m' (Recvbuf, j) = out j).
  Proof.
    intros H HE. destruct (copyout_lines_ok out (num_lines b) 0 m (fun _ => False)) as (A & _ & B); try tauto.
    - intros. apply H; auto. lia.
    - cbv zeta in *. change (copyout_all mcounts b tot) with (copyout_lines mcounts b tot (seq 0 (num_lines b)) (st 0)).
      split; auto. intros j Hj. destruct (moffset_cover mcounts N j Hj) as (f & i & Hf & Hi & ->).
      destruct (HE f Hf) as (n & Hn & O & <-). apply B; auto. lia.
  Qed.
  Lemma copyout_quiet c : forallb quiet (copyout_all mcounts b c) = true.
  Proof.
    unfold copyout_all. generalize 0 at 2. induction (seq 0 (num_lines b)) as [|n ns IH]; intros d; auto.
    cbn [copyout_lines]. rewrite forallb_app, IH, andb_true_r. destruct (existsb _ _); auto.
    unfold overlapp. match goal with |- context [if ?c then [] else _] => destruct c end; auto.
  Qed.

  (* ---------- out, own fragment ---------- *)
  Lemma before_output_ok n : sendto (lines b n) <> [] -> forall k n0, n0 <= n < n0 + k ->
    (forall n', n0 <= n' < n -> sendto (lines b n') = []) ->
    before_output mcounts b (seq n0 k) (st n0) = st n.
  Proof.
    intros U. induction k as [|k IH]; intros n0 Hn H; [lia|]. cbn [seq before_output].
    destruct (Nat.eq_dec n0 n) as [->|D]; [destruct (sendto (lines b n)); [now destruct U|auto]|]. rewrite H by lia. rewrite <- st_S. apply IH; [lia|].
    intros; apply H; lia.
  Qed.
  Lemma copyout_own_ok n c (m : memory) : n < num_lines b -> sendto (lines b n) <> [] ->
    (forall n', n' < n -> sendto (lines b n') = []) ->
    let m' := exec_list op (copyout_own mcounts b c) m in
    (forall a, fst a <> Recvbuf \/ c <= snd a -> m' a = m a) /\
    (forall i, i < c -> m' (Recvbuf, i) = m (Shm 0, st n + i)).
  Proof.
    intros Hn U H. unfold copyout_own. change (before_output mcounts b (seq 0 (num_lines b)) 0) with (before_output mcounts b (seq 0 (num_lines b)) (st 0)).
    rewrite (before_output_ok n U (num_lines b) 0) by (try lia; intros; apply H; lia).
    cbv zeta. destruct (Nat.eqb_spec c 0) as [Z|Z]; cbn [app exec_list fold_left exec_local]; split; auto; try (intros; lia).
    - intros a Ha. destruct (inside _ _ _) eqn:I; auto. apply inside_spec in I. cbn in I. exfalso.
      destruct Ha as [Ha|Ha]; [apply Ha; symmetry; tauto|lia].
    - intros i Hi. replace (inside (Recvbuf, 0) c (Recvbuf, i)) with true.
      + cbn [snd]. unfold at_off. cbn [fst snd]. do 2 f_equal. lia.
      + symmetry. apply inside_spec. cbn. split; auto. lia.
  Qed.
  Lemma own_quiet c : forallb quiet (copyout_own mcounts b c) = true.
  Proof. unfold copyout_own. now destruct (c =? 0). Qed.
End Move.
