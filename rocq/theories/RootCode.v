(* The code generated from a block with struck out messages is the code of the
   block with all its messages, but without the sends and receives that were
   struck out. *)
From Verif Require Import Base SchedModel SchedSpec RawModel MsgProofs PhaseProofs RawCode RawStage RawProofs RootModel.
Local Ltac Zify.zify_post_hook ::= idtac.

(* kp p q: the message from p to q is kept; the lines of node q *)
Definition keepi (kp : nat -> nat -> bool) (q : nat) (i : instr) : bool :=
  match i with
  | Irecv _ _ p => kp p q
  | Isend _ _ p => kp q p
  | _ => true
  end.

Lemma forall_filter {A} (P : A -> Prop) (f : A -> bool) l : Forall P l -> Forall P (filter f l).
Proof. intros H. apply Forall_forall. intros x Hx. apply filter_In in Hx. rewrite Forall_forall in H. now apply H. Qed.
Lemma nodup_peers (f : request -> bool) (l : list request) : NoDup (map peer l) -> NoDup (map peer (filter f l)).
Proof.
  induction l as [|r l IH]; cbn; auto. intros H. inversion H; subst. destruct (f r); cbn; auto. constructor; auto.
  intros X. apply in_map_iff in X. destruct X as (r' & E & X). apply filter_In in X. apply H2.
  rewrite <- E. apply in_map. tauto.
Qed.

Section Filter.
  Context (kp : nat -> nat -> bool) (q : nat).
  Local Notation kf := (filter (keepi kp q)).
  Lemma keep_quiet l : forallb quiet l = true -> kf l = l.
  Proof.
    induction l as [|i l IH]; cbn; auto. intros H. apply andb_true_iff in H. destruct H as [A B].
    destruct i; cbn in *; try discriminate; now rewrite IH.
  Qed.
  Lemma keep_exec {V} (op : V -> V -> V) l : forall m, exec_list op (kf l) m = exec_list op l m.
  Proof.
    induction l as [|i l IH]; intros m; [reflexivity|]. cbn [filter exec_list fold_left].
    destruct i; cbn [keepi]; try (exact (IH _)).
    - destruct (kp partner q); exact (IH m).
    - destruct (kp q partner); exact (IH m).
  Qed.
  Lemma keep_recvs l : recvs_of (kf l) = filter (fun r => kp (peer r) q) (recvs_of l).
  Proof.
    induction l as [|i l IH]; [reflexivity|]. cbn [filter].
    destruct i; cbn [keepi]; try exact IH.
    - cbn. destruct (kp partner q); cbn; [f_equal|]; exact IH.
    - destruct (kp q partner); exact IH.
  Qed.
  Lemma keep_sends l : sends_of (kf l) = filter (fun r => kp q (peer r)) (sends_of l).
  Proof.
    induction l as [|i l IH]; [reflexivity|]. cbn [filter].
    destruct i; cbn [keepi]; try exact IH.
    - destruct (kp partner q); exact IH.
    - cbn. destruct (kp q partner); cbn; [f_equal|]; exact IH.
  Qed.
  Lemma keep_race l : race_free l -> race_free (kf l).
  Proof.
    induction l as [|i l IH]; [auto|]. cbn [race_free]. intros [A B]. cbn [filter].
    destruct (keepi kp q i); [|auto]. cbn [race_free]. split; [|auto].
    destruct i; auto using forall_filter.
  Qed.
End Filter.

Lemma phases_filter N K L kp : phases_ok N K L -> phases_ok N K (fun m q => filter (keepi (kp m) q) (L m q)).
Proof.
  intros [A1 A2 A3 A4 A5 A6 A7 A8]. split.
  - intros m p Hm Hp I. apply filter_In in I. exact (A1 m p Hm Hp (proj1 I)).
  - intros m p Hm Hp. rewrite keep_sends. apply nodup_peers. auto.
  - intros m p Hm Hp. rewrite keep_recvs. apply nodup_peers. auto.
  - intros m p r Hm Hp I. rewrite keep_sends in I. apply filter_In in I. destruct I as [I E].
    destruct (A4 m p r Hm Hp I) as (X & r' & I' & E' & El). split; auto. exists r'. rewrite keep_recvs.
    split; [|auto]. apply filter_In. now rewrite E'.
  - intros m p r Hm Hp I. rewrite keep_recvs in I. apply filter_In in I. destruct I as [I E].
    destruct (A5 m p r Hm Hp I) as (X & r' & I' & E' & El). split; auto. exists r'. rewrite keep_sends.
    split; [|auto]. apply filter_In. now rewrite E'.
  - intros p Hp. rewrite keep_sends, A6 by auto. reflexivity.
  - intros p Hp. rewrite keep_recvs, A7 by auto. reflexivity.
  - intros m p Hm Hp. apply keep_race. auto.
Qed.

(* ---------- one block ---------- *)
Lemma struck_strike q e : struck q (strike e) = is_node q e.
Proof. unfold struck, strike, is_node. cbn [fst]. replace (- (-10 - fst e) - 10)%Z with (fst e) by lia. reflexivity. Qed.
Lemma node_strike q e : (-1 <= fst e)%Z -> is_node q (strike e) = false.
Proof. intros H. unfold strike, is_node. cbn [fst]. apply Z.eqb_neq. lia. Qed.
Lemma struck_node q e : (-1 <= fst e)%Z -> struck q e = false.
Proof. intros H. unfold struck. apply Z.eqb_neq. lia. Qed.

(* [pr] is the block [t] with the messages struck out that [kp] does not keep *)
Record prunes (kp : nat -> nat -> bool) (node : nat) (t pr : block) : Prop := {
  pr_num : num_lines pr = num_lines t;
  pr_frac : forall n, n < num_lines t -> frac (lines pr n) = frac (lines t n);
  pr_red : forall n, n < num_lines t -> reducefrom (lines pr n) = reducefrom (lines t n);
  pr_copy : forall n, n < num_lines t -> copyreducefrom (lines pr n) = copyreducefrom (lines t n);
  pr_range : forall n e, n < num_lines t -> In e (sendto (lines t n) ++ recvfrom (lines t n)) -> (-1 <= fst e)%Z;
  pr_recv : forall n, n < num_lines t -> exists k : bool,
     recvfrom (lines pr n) = (if k then recvfrom (lines t n) else map strike (recvfrom (lines t n))) /\
     forall q e, In e (recvfrom (lines t n)) -> is_node q e = true -> k = kp q node;
  pr_send : forall n, n < num_lines t -> exists g,
     sendto (lines pr n) = map (fun e : Z * nat => if g e : bool then e else strike e) (sendto (lines t n)) /\
     forall q e, In e (sendto (lines t n)) -> is_node q e = true -> g e = kp node q }.

Section Block.
  Context (size_of : nat -> nat) (N node : nat) (kp : nat -> nat -> bool) (t pr : block) (P : prunes kp node t pr).
  Local Notation kf := (filter (keepi kp node)).

  Lemma pr_size n : n < num_lines t -> line_size size_of pr n = line_size size_of t n.
  Proof. intros H. unfold line_size. now rewrite (pr_frac _ _ _ _ P). Qed.
  Lemma pr_start n : n <= num_lines t -> line_start size_of pr n = line_start size_of t n.
  Proof.
    intros H. unfold line_start. rewrite !fold_add. cbn. f_equal. apply map_ext_in. intros k Hk. apply in_seq in Hk.
    apply pr_size. lia.
  Qed.
  Lemma fold_ext {A B} (f g : A -> B -> A) l : (forall a x, In x l -> f a x = g a x) -> forall a, fold_left f l a = fold_left g l a.
  Proof.
    induction l as [|x l IH]; intros H a; [reflexivity|]. cbn. rewrite H by now left. apply IH. intros; apply H; now right.
  Qed.

  Lemma existsb_ext {A} (f g : A -> bool) l : (forall x, In x l -> f x = g x) -> existsb f l = existsb g l.
  Proof. induction l as [|x l IH]; cbn; intros H; auto. rewrite H by now left. f_equal. apply IH. intros; apply H; now right. Qed.
  Lemma existsb_map {A B} (f : B -> bool) (g : A -> B) l : existsb f (map g l) = existsb (fun x => f (g x)) l.
  Proof. induction l as [|x l IH]; cbn; auto. now rewrite IH. Qed.

  Lemma kind_eq q n : n < num_lines t ->
    recv_kind node pr q n = if receives_from node t q n then Some (kp q node) else None.
  Proof.
    intros Hn. unfold recv_kind, receives_from. destruct (q =? node); [now rewrite andb_false_r|]. rewrite andb_true_r.
    destruct (pr_recv _ _ _ _ P n Hn) as (k & E & Hk). rewrite E.
    assert (R : forall e, In e (recvfrom (lines t n)) -> (-1 <= fst e)%Z).
    { intros e He. apply (pr_range _ _ _ _ P n e Hn). apply in_or_app. now right. }
    destruct k.
    - assert (F : find (fun e => is_node q e || struck q e) (recvfrom (lines t n)) = find (is_node q) (recvfrom (lines t n))).
      { clear E Hk. induction (recvfrom (lines t n)) as [|e l IH]; [reflexivity|]. cbn. rewrite (struck_node q e) by (apply R; now left).
        rewrite orb_false_r. destruct (is_node q e); auto. apply IH. intros; apply R; now right. }
      rewrite F. destruct (find (is_node q) (recvfrom (lines t n))) as [e|] eqn:Fd.
      + apply find_some in Fd. destruct Fd as [I X]. cbn. rewrite X. rewrite (Hk q e I X).
        replace (existsb (is_node q) (recvfrom (lines t n))) with true; auto. symmetry. apply existsb_exists. eauto.
      + replace (existsb (is_node q) (recvfrom (lines t n))) with false; auto. symmetry. apply not_true_is_false. intros X.
        apply existsb_exists in X. destruct X as (e & I & X). rewrite (find_none _ _ Fd e I) in X. discriminate.
    - assert (F : find (fun e => is_node q e || struck q e) (map strike (recvfrom (lines t n))) = option_map strike (find (is_node q) (recvfrom (lines t n)))).
      { clear E Hk. induction (recvfrom (lines t n)) as [|e l IH]; [reflexivity|]. cbn [map find]. rewrite (node_strike q e) by (apply R; now left).
        rewrite struck_strike. cbn [orb]. destruct (is_node q e); auto. apply IH. intros; apply R; now right. }
      rewrite F. destruct (find (is_node q) (recvfrom (lines t n))) as [e|] eqn:Fd.
      + apply find_some in Fd. destruct Fd as [I X]. cbn. rewrite (node_strike q e) by auto. rewrite <- (Hk q e I X).
        replace (existsb (is_node q) (recvfrom (lines t n))) with true; auto. symmetry. apply existsb_exists. eauto.
      + replace (existsb (is_node q) (recvfrom (lines t n))) with false; auto. symmetry. apply not_true_is_false. intros X.
        apply existsb_exists in X. destruct X as (e & I & X). rewrite (find_none _ _ Fd e I) in X. discriminate.
  Qed.
  Lemma kind_size_eq q kind : kind_size size_of node pr q kind = if Bool.eqb (kp q node) kind then recv_size size_of node t q else 0.
  Proof.
    unfold kind_size, recv_size. rewrite (pr_num _ _ _ _ P).
    transitivity (fold_left (fun a n => if receives_from node t q n then if Bool.eqb (kp q node) kind then a + line_size size_of t n else a else a) (seq 0 (num_lines t)) 0).
    - apply fold_ext. intros a n Hn. apply in_seq in Hn. rewrite kind_eq by lia. rewrite pr_size by lia.
      destruct (receives_from node t q n); auto.
    - destruct (Bool.eqb (kp q node) kind); [reflexivity|]. generalize 0 at 2 3. intros a0.
      induction (seq 0 (num_lines t)) as [|n l IH]; [reflexivity|]. cbn. now destruct (receives_from node t q n).
  Qed.
  Lemma receives2_eq os : forall c, receives2 size_of N node pr os c =
    (kf (receives size_of N node t os c), c + length (receives size_of N node t os c)).
  Proof.
    induction os as [|o os IH]; intros c; [cbn; now rewrite Nat.add_0_r|]. cbn [receives2 receives].
    set (q := from_node N node o). rewrite !kind_size_eq, IH.
    destruct (kp q node) eqn:Kq; cbn [Bool.eqb].
    - destruct (recv_size size_of node t q =? 0) eqn:Z; cbn [used app Nat.eqb].
      + unfold used. rewrite Z. now rewrite !Nat.add_0_r.
      + unfold used. rewrite Z. cbn [filter keepi Nat.eqb]. rewrite Kq. cbn [length]. rewrite Nat.add_0_r, Nat.add_1_r. f_equal. lia.
    - destruct (recv_size size_of node t q =? 0) eqn:Z; cbn [used app Nat.eqb].
      + unfold used. rewrite Z. now rewrite !Nat.add_0_r.
      + unfold used. rewrite Z. cbn [filter keepi Nat.eqb]. rewrite Kq. cbn [length]. rewrite Nat.add_0_r, Nat.add_1_r. f_equal. lia.
  Qed.

  Lemma pack_entries2_eq q n c g : n < num_lines t -> forall es add adds,
    (forall e, In e es -> (-1 <= fst e)%Z) -> (forall e, In e es -> is_node q e = true -> g e = kp node q) ->
    pack_entries2 size_of node pr q n c (map (fun e : Z * nat => if g e : bool then e else strike e) es) add adds =
    if kp node q then let '(code, add') := pack_entries size_of node t q n c es add in (code, add', adds)
    else let '(code, adds') := pack_entries size_of node t q n c es adds in (code, add, adds').
  Proof.
    intros Hn. induction es as [|e es IH]; intros add adds R G; [now destruct (kp node q)|].
    cbn [map pack_entries2 pack_entries].
    assert (Re : (-1 <= fst e)%Z) by (apply R; now left).
    assert (IH' : forall add adds, pack_entries2 size_of node pr q n c (map (fun e : Z * nat => if g e : bool then e else strike e) es) add adds =
      if kp node q then let '(code, add') := pack_entries size_of node t q n c es add in (code, add', adds)
      else let '(code, adds') := pack_entries size_of node t q n c es adds in (code, add, adds')).
    { intros. apply IH; intros; [apply R|apply G]; auto; now right. }
    assert (Ge := G e (or_introl eq_refl)). clear IH R G. rewrite !pr_size, !pr_start by lia.
    destruct (is_node q e) eqn:Ne.
    - rewrite (Ge eq_refl). destruct (kp node q); rewrite ?Ne, ?node_strike, ?struck_strike, ?Ne by auto; cbn [andb].
      + destruct (negb (q =? node)); cbn [andb].
        * rewrite IH'. destruct (pack_entries _ _ _ _ _ _ _ _). reflexivity.
        * rewrite struck_node by auto. cbn [andb]. apply IH'.
      + destruct (negb (q =? node)); cbn [andb].
        * rewrite IH'. destruct (pack_entries _ _ _ _ _ _ _ _). reflexivity.
        * apply IH'.
    - assert (X : is_node q (if g e then e else strike e) = false) by (destruct (g e); auto using node_strike).
      assert (Y : struck q (if g e then e else strike e) = false) by (destruct (g e); [now apply struck_node|now rewrite struck_strike]).
      rewrite X, Y. cbn [andb]. apply IH'.
  Qed.
  Lemma pack_lines2_eq q c ns : (forall n, In n ns -> n < num_lines t) -> forall add adds,
    pack_lines2 size_of node pr q c ns add adds =
    if kp node q then let '(code, add') := pack_lines size_of node t q c ns add in (code, add', adds)
    else let '(code, adds') := pack_lines size_of node t q c ns adds in (code, add, adds').
  Proof.
    induction ns as [|n ns IH]; intros H add adds; [now destruct (kp node q)|]. cbn [pack_lines2 pack_lines].
    assert (Hn : n < num_lines t) by (apply H; now left).
    destruct (pr_send _ _ _ _ P n Hn) as (g & E & G). rewrite E.
    rewrite (pack_entries2_eq q n c g Hn); auto.
    2:{ intros e He. apply (pr_range _ _ _ _ P n e Hn). apply in_or_app. now left. }
    assert (IH' := IH (fun n Hn => H n (or_intror Hn))). clear IH.
    destruct (kp node q).
    - destruct (pack_entries _ _ _ _ _ _ _ _) as [code1 add1]. rewrite IH'. destruct (pack_lines _ _ _ _ _ _ _). reflexivity.
    - destruct (pack_entries _ _ _ _ _ _ _ _) as [code1 add1]. rewrite IH'. destruct (pack_lines _ _ _ _ _ _ _). reflexivity.
  Qed.
  Lemma sends2_eq os : forall c, 1 <= c -> sends2 size_of N node pr os c = kf (sends size_of N node t os c).
  Proof.
    induction os as [|o os IH]; intros c Hc; [reflexivity|]. cbn [sends2 sends].
    set (q := to_node N node o). rewrite (pr_num _ _ _ _ P). rewrite pack_lines2_eq by (intros n Hn; apply in_seq in Hn; lia).
    pose proof (pack_lines_ok size_of node t andb q c Hc (seq 0 (num_lines t)) 0) as X.
    destruct (pack_lines size_of node t q c (seq 0 (num_lines t)) 0) as [code add]. destruct X as [Q _ _ _ _].
    rewrite filter_app, (keep_quiet kp node code Q).
    destruct (kp node q) eqn:Kq.
    - f_equal. unfold used. cbn [Nat.eqb]. destruct (add =? 0); cbn [app].
      + rewrite !Nat.add_0_r. now apply IH.
      + cbn [filter keepi]. rewrite Kq. rewrite Nat.add_0_r, Nat.add_1_r. do 2 f_equal. apply IH. lia.
    - f_equal. unfold used. cbn [Nat.eqb]. destruct (add =? 0); cbn [app].
      + rewrite !Nat.add_0_r. now apply IH.
      + cbn [filter keepi]. rewrite Kq. rewrite Nat.add_0_r, Nat.add_1_r. f_equal. apply IH. lia.
  Qed.

  Lemma any_eq q n : n < num_lines t -> any_from node pr q n = receives_from node t q n.
  Proof.
    intros Hn. unfold any_from, receives_from. f_equal.
    destruct (pr_recv _ _ _ _ P n Hn) as (k & E & _). rewrite E.
    assert (R : forall e, In e (recvfrom (lines t n)) -> (-1 <= fst e)%Z).
    { intros e He. apply (pr_range _ _ _ _ P n e Hn). apply in_or_app. now right. }
    destruct k.
    - apply existsb_ext. intros e He. rewrite (struck_node q e) by auto. apply orb_false_r.
    - rewrite existsb_map. apply existsb_ext. intros e He. now rewrite node_strike, struck_strike by auto.
  Qed.
  Lemma any_size_eq q : any_size size_of node pr q = recv_size size_of node t q.
  Proof.
    unfold any_size, recv_size. rewrite (pr_num _ _ _ _ P). apply fold_ext. intros a n Hn. apply in_seq in Hn.
    now rewrite any_eq, pr_size by lia.
  Qed.
  Lemma any_start_eq q ns : (forall n, In n ns -> n < num_lines t) -> forall j,
    any_start size_of node pr q ns j = first_start size_of node t q ns j.
  Proof.
    induction ns as [|n ns IH]; intros H j; [reflexivity|]. cbn. rewrite any_eq, pr_size by (apply H; now left).
    destruct (receives_from node t q n); auto. apply IH. intros; apply H; now right.
  Qed.
  Lemma last_any_eq q : last_any node pr q = last_receiving node t q.
  Proof.
    unfold last_any, last_receiving. rewrite (pr_num _ _ _ _ P). apply fold_ext. intros a n Hn. apply in_seq in Hn.
    now rewrite any_eq by lia.
  Qed.
  Lemma last_receiving_lt q : recv_size size_of node t q <> 0 -> last_receiving node t q < num_lines t.
  Proof.
    intros Z. unfold last_receiving. rewrite fold_last. rewrite rsize_eq in Z.
    assert (X : rlines node t q <> []) by (intros E; rewrite E in Z; now apply Z). unfold rlines in X.
    assert (I : In (last (filter (receives_from node t q) (seq 0 (num_lines t))) 0) (filter (receives_from node t q) (seq 0 (num_lines t)))).
    { revert X. generalize (filter (receives_from node t q) (seq 0 (num_lines t))). induction l as [|x [|y l] IH]; [congruence|now left|]. intros _. right. apply IH. discriminate. }
    apply filter_In in I. destruct I as [I _]. apply in_seq in I. lia.
  Qed.
  Lemma unpacks2_eq os : forall c, unpacks2 size_of N node pr os c = unpacks size_of N node t os c.
  Proof.
    induction os as [|o os IH]; intros c; [reflexivity|]. cbn [unpacks2 unpacks]. set (q := from_node N node o).
    rewrite any_size_eq. destruct (Nat.eqb_spec (recv_size size_of node t q) 0) as [Z|Z]; [apply IH|]. rewrite IH. f_equal.
    rewrite (pr_num _ _ _ _ P), any_start_eq by (intros n Hn; apply in_seq in Hn; lia). rewrite last_any_eq.
    assert (Hn := last_receiving_lt q Z). set (n := last_receiving node t q) in *.
    destruct (pr_recv _ _ _ _ P n Hn) as (k & E & _). rewrite E.
    assert (R : forall e, In e (recvfrom (lines t n)) -> (-1 <= fst e)%Z).
    { intros e He. apply (pr_range _ _ _ _ P n e Hn). apply in_or_app. now right. }
    destruct (recvfrom (lines t n)) as [|e es]; [now destruct k|]. assert (Re := R e (or_introl eq_refl)).
    destruct k; cbn [map].
    - rewrite (struck_node node e) by auto. now rewrite orb_false_r.
    - rewrite (node_strike node e), struck_strike by auto. reflexivity.
  Qed.
  Lemma flat_ext {A B} (f g : A -> list B) l : (forall x, In x l -> f x = g x) -> flat_map f l = flat_map g l.
  Proof. induction l as [|x l IH]; cbn; intros H; auto. rewrite H by now left. f_equal. apply IH. intros; apply H; now right. Qed.

  Lemma post2_eq first : post_code2 size_of N node pr first = kf (post_code size_of N node t first).
  Proof.
    unfold post_code2, post_code. rewrite receives2_eq. rewrite !filter_app, sends2_eq by lia. f_equal. now destruct first.
  Qed.

  Context (IX : forall n r, n < num_lines t -> In r (reducefrom (lines t n) ++ copyreducefrom (lines t n)) -> r < num_lines t).
  Lemma reduces2_eq : reduces size_of pr = reduces size_of t.
  Proof.
    unfold reduces. rewrite (pr_num _ _ _ _ P). apply flat_ext. intros n Hn. apply in_seq in Hn.
    rewrite (pr_red _ _ _ _ P) by lia. apply flat_ext. intros r Hr.
    assert (r < num_lines t) by (apply (IX n); [lia|]; apply in_or_app; now left).
    now rewrite pr_size, !pr_start by lia.
  Qed.
  Lemma copyreduces2_eq : copyreduces size_of pr = copyreduces size_of t.
  Proof.
    unfold copyreduces. rewrite (pr_num _ _ _ _ P). apply flat_ext. intros n Hn. apply in_seq in Hn.
    assert (X : forall r, In r (copyreducefrom (lines t n)) -> r < num_lines t) by (intros r Hr; apply (IX n); [lia|]; apply in_or_app; now right).
    rewrite (pr_copy _ _ _ _ P), pr_size by lia. destruct (line_size size_of t n =? 0); auto.
    destruct (copyreducefrom (lines t n)) as [|r rs]; auto. f_equal.
    - rewrite !pr_start; auto; try lia. apply Nat.lt_le_incl, X. now left.
    - apply map_ext_in. intros r' Hr'. rewrite !pr_start; auto; try lia. apply Nat.lt_le_incl, X. now right.
  Qed.
  Lemma after2_eq : after_code2 size_of N node pr = after_code size_of N node t.
  Proof. unfold after_code2, after_code. now rewrite unpacks2_eq, reduces2_eq, copyreduces2_eq. Qed.
End Block.

(* ---------- the whole exchange ---------- *)
(* every list can be cut into pieces *)
Lemma cut {V} (d : V) (size : nat -> nat) l : NoDup l -> forall w, length w = sum (map size l) ->
  exists f : nat -> list V, (forall x, length (f x) = size x) /\ flat_map f l = w.
Proof.
  induction l as [|x l IH]; intros H w Hw.
  - exists (fun x => repeat d (size x)). split; [intros; apply repeat_length|]. cbn in *. now destruct w.
  - inversion H; subst. cbn in Hw. destruct (IH H3 (skipn (size x) w)) as (f & A & B).
    { rewrite skipn_length. lia. }
    exists (fun y => if y =? x then firstn (size x) w else f y). split.
    + intros y. destruct (Nat.eqb_spec y x) as [->|]; auto. rewrite firstn_length. lia.
    + cbn. rewrite Nat.eqb_refl. rewrite <- (firstn_skipn (size x) w) at 2. f_equal. rewrite <- B.
      apply flat_ext. intros y Hy. destruct (Nat.eqb_spec y x) as [->|]; auto. contradiction.
Qed.

Section Main2.
  (* alg: all messages; algp: pruned; both without the reductions that are not needed *)
  Context (N : nat) (alg algp : nat -> list block) (count : nat) (size_of : nat -> nat).
  Context (pre post : nat -> list instr).
  Local Notation blk m := (fun q => nth m (alg q) empty_block).
  Context (Hc : 1 <= count) (SL : same_length N alg count) (SLp : same_length N algp count).
  Context (WM : forall m, 1 <= m < count -> well_matched N (blk m)).
  Context (Qpre : forall q, q < N -> forallb quiet (pre q) = true) (Qpost : forall q, q < N -> forallb quiet (post q) = true).
  Context (kp : nat -> nat -> nat -> bool).
  Context (PR : forall m q, 1 <= m < count -> q < N -> prunes (kp m) q (blk m q) (nth m (algp q) empty_block)).
  Let K := count - 1.
  Local Notation L := (L N alg count size_of pre post).
  Local Notation front := (front N alg size_of pre).
  Definition L2 (m q : nat) : list instr := filter (keepi (kp (S m)) q) (L m q).
  Definition program2 (q : nat) : list instr := pre q ++ blocks_code2 size_of N q (tl (algp q)) true ++ post q.

  Lemma ix m q n r : 1 <= m < count -> q < N -> n < num_lines (blk m q) ->
    In r (reducefrom (lines (blk m q) n) ++ copyreducefrom (lines (blk m q) n)) -> r < num_lines (blk m q).
  Proof.
    intros Hm Hq Hn I. destruct (WM m Hm) as [_ W]. destruct (W q n Hq Hn) as [_ R]. rewrite Forall_forall in R. now apply R.
  Qed.
  Lemma blocks_tail2 q : q < N -> tl (algp q) = map (fun m => nth m (algp q) empty_block) (seq 1 (count - 1)).
  Proof.
    intros Hq. pose proof (SLp q Hq) as E. destruct (algp q) as [|b0 bs]; cbn [length] in E; [lia|].
    cbn [tl]. replace (count - 1) with (length bs) by lia. clear -bs.
    rewrite <- seq_shift, map_map. cbn [nth].
    induction bs as [|b bs IH]; [reflexivity|]. cbn [length seq map nth]. f_equal. rewrite IH at 1.
    rewrite <- seq_shift, map_map. reflexivity.
  Qed.
  Lemma program2_phased q : q < N -> program2 q = phased K L2 q.
  Proof.
    intros Hq. unfold program2, phased. rewrite blocks_tail2 by auto. fold K.
    assert (FQ : forall m, filter (keepi (kp (S m)) q) (front m q) = front m q).
    { intros m. apply keep_quiet. now apply (front_quiet N alg size_of pre). }
    assert (PQ : forall m, filter (keepi (kp (S m)) q) (Barrier :: post q) = Barrier :: post q).
    { intros m. apply keep_quiet. cbn. auto. }
    assert (G : forall j m, m + j = K ->
      filter (keepi (kp (S m)) q) (if m <? K then post_code size_of N q (blk (S m) q) (m =? 0) else Barrier :: post q) ++ rest_code K L2 m q =
      blocks_code2 size_of N q (map (fun m => nth m (algp q) empty_block) (seq (S m) j)) (m =? 0) ++ post q).
    { induction j as [|j IH]; intros m E.
      - replace m with K by lia. rewrite Nat.ltb_irrefl, rest_end, app_nil_r, PQ. reflexivity.
      - assert (B : 1 <= S m < count) by (unfold K in *; lia).
        replace (m <? K) with true by (symmetry; apply Nat.ltb_lt; lia). rewrite rest_step by lia.
        cbn [seq map blocks_code2]. rewrite <- !app_assoc. cbn [app].
        rewrite (post2_eq size_of N q (kp (S m)) (blk (S m) q)) by (apply PR; auto).
        rewrite (after2_eq size_of N q (kp (S m)) (blk (S m) q)) by (first [apply PR; auto | intros n r Hn; now apply ix]).
        f_equal. f_equal.
        unfold L2 at 1, RawProofs.L. rewrite filter_app, FQ. unfold RawProofs.front. cbn [Nat.eqb]. rewrite <- app_assoc. f_equal. apply (IH (S m)). lia. }
    change true with (0 =? 0). rewrite <- (G K 0) by lia.
    change (L2 0 q) with (filter (keepi (kp 1) q) (L 0 q)). unfold RawProofs.L. fold K. rewrite filter_app, FQ, <- app_assoc. reflexivity.
  Qed.
  Lemma ok2 : phases_ok N K L2.
  Proof. exact (phases_filter N K L (fun m => kp (S m)) (ok N alg count size_of pre post Hc WM Qpre Qpost)). Qed.

  Context {V : Type} (op : V -> V -> V) (mem0 : nat -> @memory V) (F : nat -> nat -> nat).
  Notation memory := (@memory V).
  Context (LAY : forall m q n, 1 <= m < count -> q < N -> n < num_lines (blk m q) -> frac (lines (blk m q) n) = F q n).

  Definition amid2 (m q : nat) : memory := exec_list op (front m q) (memat op L2 mem0 m q).
  Local Notation recvs_at m q := (receives size_of N q (blk (S m) q) (seq 0 N) 1).
  Local Notation sends_at m q := (sends size_of N q (blk (S m) q) (seq 0 N) (1 + length (recvs_at m q))).
  Lemma exec_L2 m q : m < K -> exec_list op (L2 m q) (memat op L2 mem0 m q) = exec_list op (sends_at m q) (amid2 m q).
  Proof.
    intros Hm. unfold L2 at 1. rewrite keep_exec. unfold RawProofs.L, amid2. apply Nat.ltb_lt in Hm. fold K. rewrite Hm, exec_list_app. unfold post_code.
    rewrite !exec_list_app, receives_exec. now destruct (m =? 0).
  Qed.
  Lemma memat_S2 m q : memat op L2 mem0 (S m) q = arrive_all (recvs_of (L2 m q)) (payload op L2 mem0 m q) (exec_list op (L2 m q) (memat op L2 mem0 m q)).
  Proof. reflexivity. Qed.
  Lemma recv_in2 m q r : In r (recvs_of (L2 m q)) -> In r (recvs_of (L m q)) /\ kp (S m) (peer r) q = true.
  Proof. unfold L2. rewrite keep_recvs. intros I. apply filter_In in I. exact I. Qed.
  Lemma keep2 m q a : m < K -> q < N -> (forall k, 1 <= k -> fst a <> Shm k) -> memat op L2 mem0 (S m) q a = amid2 m q a.
  Proof.
    intros Hm Hq Ha. rewrite memat_S2, arrive_out.
    - rewrite exec_L2 by auto. apply exec_list_other. eapply Forall_impl; [|apply sends_above; lia].
      intros i Ai. destruct (writes i a) eqn:E; auto. destruct (Ai a) as [W _]. destruct (W E) as (k & Hk & X). 
      exfalso. apply (Ha k); auto. lia.
    - intros r I. apply recv_in2 in I. destruct I as [I _].
      destruct (recv_req N alg count size_of pre post Hc WM Qpre Qpost m q r) as (_ & _ & _ & _ & c & Hc' & E); auto. rewrite E.
      destruct (inside _ _ _) eqn:X; auto. apply inside_spec in X. cbn in X. exfalso. apply (Ha c); auto. symmetry. tauto.
  Qed.
  Lemma arrived2 m q r j : m < K -> q < N -> In r (recvs_of (L m q)) -> kp (S m) (peer r) q = true -> j < len r ->
    memat op L2 mem0 (S m) q (at_off (place r) j) =
    nth j (content (blk (S m)) q (fun p => piece size_of (blk (S m) p) (amid2 m p)) (peer r)) (mem0 0 (Sendbuf, 0)).
  Proof.
    intros Hm Hq I Kr Hj. rewrite memat_S2.
    destruct (recv_req N alg count size_of pre post Hc WM Qpre Qpost m q r) as (A & B & C & Z & c & Hc' & E); auto.
    assert (I2 : In r (recvs_of (L2 m q))) by (unfold L2; rewrite keep_recvs; apply filter_In; auto).
    rewrite (arrive_in op _ _ _ r) with (d := mem0 0 (Sendbuf, 0)); auto.
    - replace (snd (at_off (place r) j) - snd (place r)) with j by (cbn; lia). f_equal.
      destruct (recv_match N K L2 ok2 m q r) as (_ & r' & I' & E' & El'); auto; [lia|].
      unfold payload. rewrite <- E'. rewrite (send_to_in N K L2 ok2 m (peer r) r'); auto; [|lia].
      rewrite exec_L2 by auto. unfold L2 in I'. rewrite keep_sends in I'. apply filter_In in I'. destruct I' as [I' _].
      rewrite (L_sends N alg count size_of pre post Qpre) in I' by auto.
      destruct (sends_content size_of N (peer r) (blk (S m) (peer r)) op (seq 0 N) (1 + length (recvs_at m (peer r))) r' (amid2 m (peer r))) as (_ & _ & X); auto; [lia|].
      rewrite X. unfold content. rewrite slines_sent by congruence. now rewrite E'.
    - apply race_apart; [apply (no_race _ _ _ ok2); auto; lia|apply (one_recv _ _ _ ok2); auto; lia].
    - apply (fits_all op N K L2 mem0 ok2 m q); auto. lia.
    - apply inside_off. auto.
  Qed.

  (* one stage: what is received from a message that was struck out is arbitrary *)
  Context (ND : forall m p q, 1 <= m < count -> p < N -> q < N -> NoDup (sent_lines (blk m) p q)).
  Definition cells (i m q n : nat) : V := amid2 m q (Shm 0, off size_of (F q) n + i).
  Lemma next_cells i m q : m < K -> q < N -> exists st,
    (forall p x, p < N -> p <> q -> kp (S m) p q = true -> x < num_lines (blk (S m) p) ->
       i < size_of (frac (lines (blk (S m) p) x)) -> st p x = cells i m p x) /\
    (forall n, i < size_of (F q n) -> st q n = cells i m q n) /\
    (forall n, i < size_of (F q n) -> cells i (S m) q n = stage op N (blk (S m)) st q n).
  Proof.
    intros Hm Hq. assert (BM : 1 <= S m < count) by (unfold K in *; lia).
    set (d := mem0 0 (Sendbuf, 0)).
    (* the message of p, as found in the memory of q *)
    assert (G : forall p, exists f : nat -> list V,
      p < N -> p <> q ->
      (forall x, x < num_lines (blk (S m) p) -> length (f x) = size_of (frac (lines (blk (S m) p) x))) /\
      (kp (S m) p q = true -> f = piece size_of (blk (S m) p) (amid2 m p)) /\
      (forall r j, In r (recvs_of (L m q)) -> peer r = p -> j < len r ->
         memat op L2 mem0 (S m) q (at_off (place r) j) = nth j (flat_map f (sent_lines (blk (S m)) p q)) d)).
    { intros p. destruct (le_lt_dec N p) as [Le|Hp]; [exists (fun _ => []); intros; lia|].
      destruct (Nat.eq_dec p q) as [->|Np]; [exists (fun _ => []); intros; congruence|].
      destruct (kp (S m) p q) eqn:Kp.
      - exists (piece size_of (blk (S m) p) (amid2 m p)). intros _ _. split; [|split]; auto.
        + intros x Hx. unfold piece. now rewrite read_mem_length.
        + intros r j I E Hj. rewrite (arrived2 m q r j) by (auto; congruence). unfold content. now rewrite E.
      - destruct (find (fun r => peer r =? p) (recvs_of (L m q))) as [r0|] eqn:Fd.
        + apply find_some in Fd. destruct Fd as [I0 E0]. apply Nat.eqb_eq in E0.
          destruct (cut d (fun x => size_of (frac (lines (blk (S m) p) x))) (sent_lines (blk (S m)) p q) (ND (S m) p q BM Hp Hq)
                     (read_mem (memat op L2 mem0 (S m) q) (place r0) (len r0))) as (f & A & B).
          { rewrite read_mem_length. destruct (recv_req N alg count size_of pre post Hc WM Qpre Qpost m q r0) as (_ & _ & C & _); auto.
            rewrite C, E0. rewrite <- (sizes_match N alg count size_of WM (S m) p q) by auto.
            unfold ssize. now rewrite slines_sent. }
          exists f. intros _ _. split; [auto|]. split; [discriminate|].
          intros r j I E Hj. assert (r = r0).
          { apply (peer_unique (recvs_of (L m q))); auto; [|congruence].
            apply (one_recv _ _ _ (ok N alg count size_of pre post Hc WM Qpre Qpost)); auto. fold K. lia. }
          subst r0. rewrite B. now rewrite read_mem_nth.
        + exists (fun x => repeat d (size_of (frac (lines (blk (S m) p) x)))). intros _ _. split; [intros; apply repeat_length|].
          split; [discriminate|]. intros r j I E. exfalso. pose proof (find_none _ _ Fd r I) as X. cbn in X. apply Nat.eqb_neq in X. auto. }
    assert (GG : exists f : nat -> nat -> list V, forall p, p < N -> p <> q ->
      (forall x, x < num_lines (blk (S m) p) -> length (f p x) = size_of (frac (lines (blk (S m) p) x))) /\
      (kp (S m) p q = true -> f p = piece size_of (blk (S m) p) (amid2 m p)) /\
      (forall r j, In r (recvs_of (L m q)) -> peer r = p -> j < len r ->
         memat op L2 mem0 (S m) q (at_off (place r) j) = nth j (flat_map (f p) (sent_lines (blk (S m)) p q)) d)).
    { clear -G. assert (X : forall n, exists f : nat -> nat -> list V, forall p, p < n -> p < N -> p <> q ->
        (forall x, x < num_lines (blk (S m) p) -> length (f p x) = size_of (frac (lines (blk (S m) p) x))) /\
        (kp (S m) p q = true -> f p = piece size_of (blk (S m) p) (amid2 m p)) /\
        (forall r j, In r (recvs_of (L m q)) -> peer r = p -> j < len r ->
           memat op L2 mem0 (S m) q (at_off (place r) j) = nth j (flat_map (f p) (sent_lines (blk (S m)) p q)) d)).
      { induction n as [|n (f & IH)]; [exists (fun _ _ => []); intros; lia|].
        destruct (G n) as (f0 & H0). exists (fun p => if p =? n then f0 else f p). intros p Hp HpN Np.
        destruct (Nat.eqb_spec p n) as [->|D]; [now apply H0|]. apply IH; auto. lia. }
      destruct (X N) as (f & H). exists f. intros p Hp Np. now apply H. }
    clear G. destruct GG as (f & G).
    set (pieces := fun p => if p =? q then piece size_of (blk (S m) q) (amid2 m q) else f p).
    exists (fun p x => if p =? q then cells i m q x else nth i (f p x) d).
    assert (LS : forall p x, p < N -> x < num_lines (blk (S m) p) -> line_start size_of (blk (S m) p) x = off size_of (F p) x).
    { intros p x Hp Hx. rewrite (lstart_off size_of N (blk (S m)) p (F p)) by (auto; try lia; intros; now apply LAY). reflexivity. }
    split; [|split].
    - intros p x Hp Np Kp Hx Hi. replace (p =? q) with false by (symmetry; now apply Nat.eqb_neq).
      destruct (G p Hp Np) as (_ & E & _). rewrite (E Kp). unfold piece. rewrite read_mem_nth by exact Hi.
      unfold at_off, cells. cbn [fst snd]. now rewrite LS.
    - intros n Hi. now rewrite Nat.eqb_refl.
    - intros n Hi. set (st := fun p x => if p =? q then cells i m q x else nth i (f p x) d).
      unfold cells, amid2. 
      change (RawProofs.front N alg size_of pre (S m) q) with (after_code size_of N q (blk (S m) q)).
      apply (after_rel op size_of N (blk (S m)) q (F q) i) with (st := st) (d := d) (pieces := pieces); auto.
      + intros p x Hp Hx. unfold pieces. destruct (Nat.eqb_spec p q) as [->|Np].
        * unfold piece. now rewrite read_mem_length.
        * now apply G.
      + intros p x Hp Hx Hi'. unfold pieces, st. destruct (Nat.eqb_spec p q) as [->|Np]; auto.
        unfold piece. rewrite read_mem_nth by exact Hi'. unfold at_off, cells. cbn [fst snd]. now rewrite LS.
      + intros o Ho. now apply from_node_lt.
      + intros n' Hn'. rewrite keep2; auto; [|cbn; intros k Hk X; injection X; lia].
        unfold st. now rewrite Nat.eqb_refl.
      + intros r j I Hj. assert (I' : In r (recvs_of (L m q))) by (now rewrite (L_recvs N alg count size_of pre post Hc WM Qpre Qpost)).
        destruct (recv_req N alg count size_of pre post Hc WM Qpre Qpost m q r) as (A & B & _); auto.
        destruct (G (peer r) A B) as (_ & _ & X). rewrite (X r j) by auto. unfold content, pieces.
        replace (peer r =? q) with false by (symmetry; now apply Nat.eqb_neq). reflexivity.
  Qed.
  Lemma user_kept2 m q a : m <= K -> q < N -> (forall k, fst a <> Shm k) -> amid2 m q a = exec_list op (pre q) (mem0 q) a.
  Proof.
    intros Hm Hq Ha. induction m as [|m IH]; [reflexivity|].
    unfold amid2 at 1, RawProofs.front. cbn [Nat.eqb]. rewrite shm_exec by (auto using shm_after).
    rewrite keep2 by auto. apply IH. lia.
  Qed.
  Lemma raw_end2 q : q < N -> exec_list op (L2 K q) (memat op L2 mem0 K q) = exec_list op (post q) (amid2 K q).
  Proof. intros Hq. unfold L2 at 1. rewrite keep_exec. unfold RawProofs.L, amid2. fold K. rewrite Nat.ltb_irrefl, exec_list_app. reflexivity. Qed.
End Main2.
