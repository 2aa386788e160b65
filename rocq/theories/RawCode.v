(* What the generated lines of one stage do to the memory of a node. *)
From Verif Require Import Base SchedModel SchedSpec RawModel MsgProofs.
Local Ltac Zify.zify_post_hook ::= idtac.

(* ---------- lists ---------- *)
Fixpoint sum (l : list nat) : nat := match l with [] => 0 | x :: r => x + sum r end.
Lemma fold_add {A} (f : A -> nat) l : forall a, fold_left (fun a k => a + f k) l a = a + sum (map f l).
Proof. induction l as [|x l IH]; cbn; intros a; [lia|]. rewrite IH. lia. Qed.
Lemma fold_add_if {A} (f : A -> nat) (g : A -> bool) l : forall a,
  fold_left (fun a k => if g k then a + f k else a) l a = a + sum (map f (filter g l)).
Proof. induction l as [|x l IH]; cbn; intros a; [lia|]. rewrite IH. destruct (g x); cbn; lia. Qed.
Lemma fold_last {A} (g : A -> bool) l : forall d, fold_left (fun k n => if g n then n else k) l d = last (filter g l) d.
Proof.
  induction l as [|x l IH]; cbn; intros d; auto. rewrite IH. destruct (g x); auto.
  destruct (filter g l) as [|y r] eqn:E; auto. cbn [last].
  clear. revert y. induction r; cbn; auto.
Qed.
Lemma last_indep {A} (l : list A) d d' : l <> [] -> last l d = last l d'.
Proof. induction l as [|x [|y l] IH]; cbn; try congruence. intros _. apply IH. discriminate. Qed.
Lemma sum_app l l' : sum (l ++ l') = sum l + sum l'.
Proof. induction l; cbn; auto. lia. Qed.
Lemma sum_in l x : In x l -> x <= sum l.
Proof. induction l; cbn; [tauto|]. intros [->|H]; [lia|]. apply IHl in H. lia. Qed.

Lemma nth_flat {A B} (f : A -> list B) (l : list A) : forall k i x d,
  nth_error l k = Some x -> i < length (f x) ->
  nth (sum (map (fun y => length (f y)) (firstn k l)) + i) (flat_map f l) d = nth i (f x) d.
Proof.
  induction l as [|y l IH]; intros [|k] i x d E H; cbn in E; try discriminate.
  - injection E as ->. cbn. now rewrite app_nth1.
  - cbn [firstn map sum flat_map]. rewrite app_nth2 by (cbn; lia).
    rewrite <- (IH k i x d E H). f_equal. cbn. lia.
Qed.

Section Mem.
Context {V : Type} (op : V -> V -> V).
Notation memory := (@memory V).

Lemma read_mem_app (m : memory) l x y : read_mem m l (x + y) = read_mem m l x ++ read_mem m (at_off l x) y.
Proof.
  unfold read_mem. rewrite seq_app, map_app. f_equal. cbn. rewrite <- (Nat.add_0_r x) at 1.
  generalize 0. induction y as [|y IH]; cbn; intros n; auto.
  rewrite <- Nat.add_succ_r, IH. f_equal. f_equal. unfold at_off. cbn. f_equal. lia.
Qed.
End Mem.

(* lines without requests *)
Definition quiet (i : instr) : bool := match i with Memcpy _ _ _ | Reduce_ _ _ _ | Barrier => true | _ => false end.
Lemma quiet_sends l : forallb quiet l = true -> sends_of l = [].
Proof. induction l as [|i l IH]; cbn; auto. intros H. apply andb_true_iff in H. destruct H. destruct i; cbn in *; auto; discriminate. Qed.
Lemma quiet_recvs l : forallb quiet l = true -> recvs_of l = [].
Proof. induction l as [|i l IH]; cbn; auto. intros H. apply andb_true_iff in H. destruct H. destruct i; cbn in *; auto; discriminate. Qed.
Lemma quiet_wait l : forallb quiet l = true -> ~ In Waitall l.
Proof. intros H I. rewrite forallb_forall in H. apply H in I. discriminate. Qed.
Lemma quiet_race l l' : forallb quiet l = true -> race_free l' -> race_free (l ++ l').
Proof.
  induction l as [|i l IH]; cbn; auto. intros H R. apply andb_true_iff in H. destruct H.
  split; auto. destruct i; auto; discriminate.
Qed.

(* lines that use, besides number 0 for reading, only numbers from c on *)
Definition above (c : nat) (i : instr) : Prop :=
  forall a, (writes i a = true -> exists k, c <= k /\ fst a = Shm k) /\
            (reads i a = true -> fst a = Shm 0 \/ exists k, c <= k /\ fst a = Shm k).
Lemma above_le c c' i : c <= c' -> above c' i -> above c i.
Proof.
  intros H A a. destruct (A a) as [W R]. split.
  - intros X. destruct (W X) as (k & ? & ?). exists k. split; auto. lia.
  - intros X. destruct (R X) as [|(k & ? & ?)]; auto. right. exists k. split; auto. lia.
Qed.
Lemma forall_above_le c c' l : c <= c' -> Forall (above c') l -> Forall (above c) l.
Proof. intros H. apply Forall_impl. intros i. now apply above_le. Qed.
Lemma above_irecv c n q : above c (Irecv (Shm c, 0) n q).
Proof.
  intros a. split; cbn; [|discriminate]. intros H. apply inside_spec in H. exists c. split; auto. now symmetry.
Qed.
Lemma above_isend c n q : above c (Isend (Shm c, 0) n q).
Proof.
  intros a. split; cbn; [discriminate|]. intros H. apply inside_spec in H. right. exists c. split; auto. now symmetry.
Qed.
Lemma above_pack c x y n : above c (Memcpy (Shm c, x) (Shm 0, y) n).
Proof.
  intros a. split; cbn; intros H; apply inside_spec in H; destruct H as [E _]; cbn in E.
  - exists c. auto.
  - auto.
Qed.
Lemma above_barrier c : above c Barrier.
Proof. intros a. split; cbn; discriminate. Qed.

Section Code.
  Context (size_of : nat -> nat) (num_nodes node : nat) (b : block).
  Local Notation lsize := (line_size size_of b).
  Local Notation lstart := (line_start size_of b).
  Local Notation from_node := (from_node num_nodes node).
  Local Notation to_node := (to_node num_nodes node).
  Local Notation rsize := (recv_size size_of node b).
  Local Notation recvf := (receives_from node b).

  Definition rlines (q : nat) : list nat := filter (recvf q) (seq 0 (num_lines b)).
  Definition slines_in (q : nat) (ns : list nat) : list nat :=
    flat_map (fun n => map (fun _ => n) (filter (fun e => is_node q e && negb (q =? node)) (sendto (lines b n)))) ns.
  Definition slines (q : nat) : list nat := slines_in q (seq 0 (num_lines b)).
  Definition ssize (q : nat) : nat := sum (map lsize (slines q)).

  Lemma rsize_eq q : rsize q = sum (map lsize (rlines q)).
  Proof. unfold recv_size. now rewrite fold_add_if. Qed.

  (* ---------- receives ---------- *)
  Lemma receives_in os : forall c d n q, In (Irecv d n q) (receives size_of num_nodes node b os c) ->
    exists c', d = (Shm c', 0) /\ c <= c' < c + length (receives size_of num_nodes node b os c) /\ n = rsize q /\ n <> 0 /\ In q (map from_node os).
  Proof.
    induction os as [|o os IH]; cbn; intros c d n q H; [tauto|].
    destruct (Nat.eqb_spec (rsize (from_node o)) 0) as [Z|Z].
    - apply IH in H. destruct H as (c' & ? & ? & ? & ? & ?). exists c'. tauto.
    - destruct H as [H|H].
      + injection H as <- <- <-. exists c. cbn. repeat split; auto; lia.
      + apply IH in H. destruct H as (c' & ? & ? & ? & ? & ?). exists c'. cbn. repeat split; auto; lia.
  Qed.
  Lemma receives_only os : forall c i, In i (receives size_of num_nodes node b os c) -> exists d n q, i = Irecv d n q.
  Proof.
    induction os as [|o os IH]; cbn; intros c i H; [tauto|]. destruct (_ =? 0); eauto.
    destruct H as [<-|H]; eauto.
  Qed.
  Lemma receives_above os : forall c, Forall (above c) (receives size_of num_nodes node b os c).
  Proof.
    induction os as [|o os IH]; cbn; intros c; [constructor|]. destruct (_ =? 0); auto. constructor.
    - apply above_irecv.
    - apply (forall_above_le c (S c)); auto.
  Qed.
  Lemma receives_peers os : forall c, map peer (recvs_of (receives size_of num_nodes node b os c)) =
    filter (fun q => negb (rsize q =? 0)) (map from_node os).
  Proof.
    induction os as [|o os IH]; cbn; intros c; auto. destruct (rsize (from_node o) =? 0); cbn; auto. now f_equal.
  Qed.
  Lemma receives_sends os : forall c, sends_of (receives size_of num_nodes node b os c) = [].
  Proof. induction os as [|o os IH]; cbn; intros c; auto. destruct (_ =? 0); cbn; auto. Qed.
  Lemma receives_exec {V} (op : V -> V -> V) os : forall c m, exec_list op (receives size_of num_nodes node b os c) m = m.
  Proof.
    induction os as [|o os IH]; intros c m; [reflexivity|]. cbn [receives]. destruct (_ =? 0); [apply IH|].
    exact (IH (S c) m).
  Qed.
  Lemma receives_race os l : forall c, 1 <= c ->
    race_free l -> Forall (above (c + length (receives size_of num_nodes node b os c))) l ->
    race_free (receives size_of num_nodes node b os c ++ l).
  Proof.
    induction os as [|o os IH]; cbn; intros c Hc R A; auto. destruct (_ =? 0) eqn:Z; auto. cbn in *. split.
    - apply Forall_app. split.
      + eapply Forall_impl; [|apply receives_above]. intros i Ai a Ha. apply inside_spec in Ha. cbn in Ha.
        destruct (Ai a) as [W Rd]. split.
        * destruct (reads i a) eqn:E; auto. destruct (Rd eq_refl) as [E2|(k & Hk & E2)]; destruct Ha as [E3 _]; rewrite <- E3 in E2; injection E2; intros; lia.
        * destruct (writes i a) eqn:E; auto. destruct (W eq_refl) as (k & Hk & E2); destruct Ha as [E3 _]; rewrite <- E3 in E2; injection E2; intros; lia.
      + eapply Forall_impl; [|exact A]. intros i Ai a Ha. apply inside_spec in Ha. cbn in Ha.
        destruct (Ai a) as [W Rd]. split.
        * destruct (reads i a) eqn:E; auto. destruct (Rd eq_refl) as [E2|(k & Hk & E2)]; destruct Ha as [E3 _]; rewrite <- E3 in E2; injection E2; intros; lia.
        * destruct (writes i a) eqn:E; auto. destruct (W eq_refl) as (k & Hk & E2); destruct Ha as [E3 _]; rewrite <- E3 in E2; injection E2; intros; lia.
    - apply IH; auto. eapply Forall_impl; [|exact A]. intros i. apply above_le. lia.
  Qed.

  (* ---------- packing ---------- *)
  Definition piece {V} (m : @memory V) (n : nat) : list V := read_mem m (Shm 0, lstart n) (lsize n).

  Record packs {V} (op : V -> V -> V) (c add : nat) (l : list nat) (code : list instr) (add' : nat) : Prop := {
    pk_quiet : forallb quiet code = true;
    pk_above : Forall (above c) code;
    pk_add : add' = add + sum (map lsize l);
    pk_writes : forall i a, In i code -> writes i a = true -> fst a = Shm c /\ add <= snd a < add';
    pk_read : forall m : @memory V, read_mem (exec_list op code m) (Shm c, add) (add' - add) = flat_map (piece m) l }.

  Lemma packs_nil {V} (op : V -> V -> V) c add : packs op c add [] [] add.
  Proof.
    split; cbn; auto; try lia; try tauto. intros m. now rewrite Nat.sub_diag.
  Qed.
  Lemma exec_keep {V} (op : V -> V -> V) code (m : @memory V) a :
    (forall i, In i code -> writes i a = true -> False) -> exec_list op code m a = m a.
  Proof.
    intros H. apply exec_list_other. apply Forall_forall. intros i Hi. destruct (writes i a) eqn:E; auto.
    exfalso. eauto.
  Qed.
  Lemma packs_app {V} (op : V -> V -> V) c add l1 code1 add1 l2 code2 add2 : 1 <= c ->
    packs op c add l1 code1 add1 -> packs op c add1 l2 code2 add2 ->
    packs op c add (l1 ++ l2) (code1 ++ code2) add2.
  Proof.
    intros Hc [Q1 A1 E1 W1 R1] [Q2 A2 E2 W2 R2]. split.
    - rewrite forallb_app. now rewrite Q1, Q2.
    - apply Forall_app. auto.
    - rewrite map_app, sum_app. lia.
    - intros i a Hi Wi. apply in_app_or in Hi. destruct Hi as [Hi|Hi].
      + destruct (W1 i a Hi Wi). split; auto. lia.
      + destruct (W2 i a Hi Wi). split; auto. lia.
    - intros m. rewrite exec_list_app, flat_map_app.
      replace (add2 - add) with ((add1 - add) + (add2 - add1)) by lia. rewrite read_mem_app. f_equal.
      + rewrite <- R1. apply read_mem_ext. intros a Ha. apply inside_spec in Ha. cbn in Ha. apply exec_keep.
        intros i Hi Wi. destruct (W2 i a Hi Wi). lia.
      + unfold at_off. cbn [fst snd]. replace (add + (add1 - add)) with add1 by lia. rewrite R2.
        clear -Hc W1. induction l2 as [|n l IH]; cbn; auto. f_equal; auto. apply read_mem_ext.
        intros a Ha. apply inside_spec in Ha. cbn in Ha. apply exec_keep. intros i Hi Wi.
        destruct (W1 i a Hi Wi) as [E _]. destruct Ha as [E2 _]. rewrite <- E2 in E. injection E. intros. lia.
  Qed.

  Lemma pack_entries_ok {V} (op : V -> V -> V) q n c : 1 <= c -> forall es add,
    let '(code, add') := pack_entries size_of node b q n c es add in
    packs op c add (map (fun _ => n) (filter (fun e => is_node q e && negb (q =? node)) es)) code add'.
  Proof.
    intros Hc. induction es as [|e es IH]; intros add; cbn; [apply packs_nil|].
    destruct (is_node q e && negb (q =? node)) eqn:E; [|apply IH].
    specialize (IH (add + lsize n)). destruct (pack_entries size_of node b q n c es (add + lsize n)) as [code add'].
    cbn [map]. apply (packs_app op c add [n] _ (add + lsize n)); auto.
    split.
    - now destruct (_ =? 0).
    - destruct (_ =? 0); [apply Forall_nil|]. apply Forall_cons; [apply above_pack|apply Forall_nil].
    - cbn. lia.
    - destruct (Nat.eqb_spec (lsize n) 0) as [Z|Z]; cbn; [tauto|]. intros i a [<-|[]] W. cbn in W.
      apply inside_spec in W. cbn in W. split; [symmetry|]; tauto.
    - intros m. replace (add + lsize n - add) with (lsize n) by lia. cbn. rewrite app_nil_r. unfold piece.
      destruct (Nat.eqb_spec (lsize n) 0) as [Z|Z]; [now rewrite Z|]. cbn.
      unfold read_mem. apply map_ext_in. intros i Hi. apply in_seq in Hi. cbn [at_off fst snd].
      rewrite inside_off by lia. f_equal. f_equal. lia.
  Qed.
  Lemma pack_lines_ok {V} (op : V -> V -> V) q c : 1 <= c -> forall ns add,
    let '(code, add') := pack_lines size_of node b q c ns add in
    packs op c add (slines_in q ns) code add'.
  Proof.
    intros Hc. induction ns as [|n ns IH]; intros add; cbn; [apply packs_nil|].
    pose proof (pack_entries_ok op q n c Hc (sendto (lines b n)) add) as P.
    destruct (pack_entries _ _ _ _ _ _ _ _) as [code1 add1].
    specialize (IH add1). destruct (pack_lines _ _ _ _ _ _ add1) as [code2 add2].
    cbn. eapply packs_app; eauto.
  Qed.

  (* ---------- sends ---------- *)
  Lemma sends_above os : forall c, 1 <= c -> Forall (above c) (sends size_of num_nodes node b os c).
  Proof.
    induction os as [|o os IH]; cbn [sends]; intros c Hc; [constructor|].
    pose proof (pack_lines_ok andb (to_node o) c Hc (seq 0 (num_lines b)) 0) as P.
    destruct (pack_lines _ _ _ _ _ _ _) as [code add]. destruct P as [_ A _ _ _].
    apply Forall_app. split; auto. destruct (add =? 0); auto.
    constructor; [apply above_barrier|]. constructor; [apply above_isend|].
    apply (forall_above_le c (S c)); [lia|]. apply IH. lia.
  Qed.
  Lemma sends_recvs os : forall c, 1 <= c -> recvs_of (sends size_of num_nodes node b os c) = [].
  Proof.
    induction os as [|o os IH]; cbn [sends]; intros c Hc; auto.
    pose proof (pack_lines_ok andb (to_node o) c Hc (seq 0 (num_lines b)) 0) as P.
    destruct (pack_lines _ _ _ _ _ _ _) as [code add]. destruct P as [Q _ _ _ _].
    rewrite recvs_app, (quiet_recvs _ Q). destruct (add =? 0); cbn; auto.
  Qed.
  Lemma sends_nowait os : forall c, 1 <= c -> ~ In Waitall (sends size_of num_nodes node b os c).
  Proof.
    induction os as [|o os IH]; cbn [sends]; intros c Hc; auto.
    pose proof (pack_lines_ok andb (to_node o) c Hc (seq 0 (num_lines b)) 0) as P.
    destruct (pack_lines _ _ _ _ _ _ _) as [code add]. destruct P as [Q _ _ _ _].
    intros I. apply in_app_or in I. destruct I as [I|I]; [now apply (quiet_wait _ Q)|].
    destruct (add =? 0); [now apply (IH c)|]. destruct I as [I|[I|I]]; try discriminate. now apply (IH (S c)); auto with arith.
  Qed.
  Lemma sends_peers os : forall c, 1 <= c -> map peer (sends_of (sends size_of num_nodes node b os c)) =
    filter (fun q => negb (ssize q =? 0)) (map to_node os).
  Proof.
    induction os as [|o os IH]; cbn [sends map filter]; intros c Hc; auto.
    pose proof (pack_lines_ok andb (to_node o) c Hc (seq 0 (num_lines b)) 0) as P.
    destruct (pack_lines _ _ _ _ _ _ _) as [code add]. destruct P as [Q _ E _ _].
    rewrite sends_app, (quiet_sends _ Q). cbn [app]. cbn in E. unfold ssize at 1, slines. rewrite <- E.
    destruct (add =? 0); cbn; auto. f_equal. apply IH. auto with arith.
  Qed.
  Lemma sends_race os : forall c, 1 <= c -> race_free (sends size_of num_nodes node b os c).
  Proof.
    induction os as [|o os IH]; cbn [sends]; intros c Hc; [exact I|].
    pose proof (pack_lines_ok andb (to_node o) c Hc (seq 0 (num_lines b)) 0) as P.
    destruct (pack_lines _ _ _ _ _ _ _) as [code add]. destruct P as [Q _ _ _ _].
    apply quiet_race; auto. destruct (add =? 0); auto. cbn. split; auto. split; [|apply IH; lia].
    eapply Forall_impl; [|apply (sends_above os (S c)); lia]. intros i Ai a Ha. apply inside_spec in Ha. cbn in Ha.
    destruct (writes i a) eqn:E; auto. destruct (Ai a) as [W _]. destruct (W E) as (k & Hk & E2). destruct Ha as [E3 _].
    rewrite <- E3 in E2. injection E2. intros. lia.
  Qed.
  (* the message that a send finds when all lines up to the end have been executed *)
  Lemma sends_content {V} (op : V -> V -> V) os : forall c r m, 1 <= c ->
    In r (sends_of (sends size_of num_nodes node b os c)) ->
    len r = ssize (peer r) /\ len r <> 0 /\
    read_mem (exec_list op (sends size_of num_nodes node b os c) m) (place r) (len r) = flat_map (piece m) (slines (peer r)).
  Proof.
    induction os as [|o os IH]; cbn [sends]; intros c r m Hc; [intros []|].
    pose proof (pack_lines_ok op (to_node o) c Hc (seq 0 (num_lines b)) 0) as P.
    destruct (pack_lines _ _ _ _ _ _ _) as [code add]. destruct P as [Q A E W R].
    rewrite sends_app, (quiet_sends _ Q), exec_list_app. cbn [app].
    assert (KEEP : forall q, flat_map (piece (exec_list op code m)) (slines q) = flat_map (piece m) (slines q)).
    { intros q. induction (slines q) as [|n l IHl]; cbn; auto. f_equal; auto. apply read_mem_ext.
      intros a Ha. apply inside_spec in Ha. cbn in Ha. apply exec_keep. intros i Hi Wi.
      destruct (W i a Hi Wi) as [E1 _]. destruct Ha as [E2 _]. rewrite <- E2 in E1. injection E1. intros. lia. }
    destruct (Nat.eqb_spec add 0) as [Z|Z].
    - intros I. destruct (IH c r (exec_list op code m) Hc I) as (X1 & X2 & X3). now rewrite X3, KEEP.
    - cbn. intros [<-|I].
      + cbn. cbn in E. refine (conj E (conj Z _)).
        specialize (R m). rewrite Nat.sub_0_r in R. unfold slines. etransitivity; [|exact R]. apply read_mem_ext. intros a Ha.
        apply exec_list_other. eapply Forall_impl; [|apply (sends_above os (S c)); lia].
        intros i Ai. apply inside_spec in Ha. cbn in Ha. destruct (writes i a) eqn:E1; auto.
        destruct (Ai a) as [W1 _]. destruct (W1 E1) as (k & Hk & E2). destruct Ha as [E3 _].
        rewrite <- E3 in E2. injection E2. intros. lia.
      + destruct (IH (S c) r (exec_list op code m)) as (X1 & X2 & X3); auto. now rewrite <- KEEP.
  Qed.
End Code.
