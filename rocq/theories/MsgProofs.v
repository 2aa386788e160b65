(* Programs of several processes that exchange messages in phases: if no line
   touches a buffer while a request on it is unfinished, and sends and receives
   of each phase fit together, the outcome does not depend on the timing, and
   nobody waits for ever. *)
From Verif Require Import Base RawModel.

Section Msg.
Context {V : Type} (op : V -> V -> V).
Notation memory := (@memory V).
Local Notation exec := (exec_local op).

Definition exec_list (l : list instr) (m : memory) : memory := fold_left (fun m i => exec i m) l m.
Definition sends_of (l : list instr) : list request :=
  flat_map (fun i => match i with Isend s n q => [Request q s n] | _ => [] end) l.
Definition recvs_of (l : list instr) : list request :=
  flat_map (fun i => match i with Irecv d n q => [Request q d n] | _ => [] end) l.
Definition writes (i : instr) (a : loc) : bool :=
  match i with
  | Irecv d n _ | Memcpy d _ n | Reduce_ d _ n => inside d n a
  | _ => false
  end.
Definition reads (i : instr) (a : loc) : bool :=
  match i with
  | Isend s n _ | Memcpy _ s n => inside s n a
  | Reduce_ d s n => inside s n a || inside d n a
  | _ => false
  end.
Fixpoint race_free (l : list instr) : Prop :=
  match l with
  | [] => True
  | i :: r =>
    match i with
    | Irecv d n _ => Forall (fun j => forall a, inside d n a = true -> reads j a = false /\ writes j a = false) r
    | Isend s n _ => Forall (fun j => forall a, inside s n a = true -> writes j a = false) r
    | _ => True
    end /\ race_free r
  end.

Definition arrive_all (rs : list request) (pay : nat -> list V) (m : memory) : memory :=
  fold_left (fun m r => write_mem m (place r) (pay (peer r))) rs m.

Lemma arrive_cons r rs pay m : arrive_all (r :: rs) pay m = arrive_all rs pay (write_mem m (place r) (pay (peer r))).
Proof. reflexivity. Qed.

(* ---------- memories ---------- *)
Lemma buffer_eqb_refl b : buffer_eqb b b = true.
Proof. destruct b; cbn; auto using Nat.eqb_refl. Qed.
Lemma buffer_eqb_eq a b : buffer_eqb a b = true -> a = b.
Proof. destruct a, b; cbn; try congruence. intros H. apply Nat.eqb_eq in H. congruence. Qed.
Lemma inside_spec l n a : inside l n a = true <-> fst l = fst a /\ snd l <= snd a < snd l + n.
Proof.
  unfold inside. rewrite !andb_true_iff, Nat.leb_le, Nat.ltb_lt. split.
  - intros [[A B] C]. split; [now apply buffer_eqb_eq|lia].
  - intros [A B]. rewrite A, buffer_eqb_refl. split; [split|]; auto; lia.
Qed.
Lemma inside_off l n i : i < n -> inside l n (at_off l i) = true.
Proof. intros H. apply inside_spec. unfold at_off. cbn [fst snd]. split; [reflexivity|lia]. Qed.
Lemma inside_at l n a : inside l n a = true -> exists i, i < n /\ a = at_off l i.
Proof.
  intros H. apply inside_spec in H. destruct H as [E H]. exists (snd a - snd l). split; [lia|].
  unfold at_off. destruct a as [x y], l as [u v]. cbn [fst snd] in *. subst. f_equal. lia.
Qed.

Lemma exec_ext i (m m' : memory) : (forall a, m a = m' a) -> forall a, exec i m a = exec i m' a.
Proof. intros H a. destruct i; cbn; auto; destruct (inside _ _ _); rewrite ?H; auto. Qed.
Lemma exec_list_ext l : forall (m m' : memory), (forall a, m a = m' a) -> forall a, exec_list l m a = exec_list l m' a.
Proof. induction l as [|i l IH]; cbn; intros; auto. apply IH. now apply exec_ext. Qed.
Lemma exec_list_app l l' (m : memory) : exec_list (l ++ l') m = exec_list l' (exec_list l m).
Proof. apply fold_left_app. Qed.
Lemma arrive_ext rs pay : forall (m m' : memory), (forall a, m a = m' a) -> forall a, arrive_all rs pay m a = arrive_all rs pay m' a.
Proof.
  induction rs as [|r rs IH]; [auto|]; intros m m' H a. rewrite !arrive_cons. apply IH. intros b. unfold write_mem.
  destruct (inside _ _ b); rewrite ?H; auto.
Qed.

Lemma exec_other i (m : memory) a : writes i a = false -> exec i m a = m a.
Proof. destruct i; cbn; auto; intros ->; auto. Qed.
Lemma exec_list_other l a : Forall (fun i => writes i a = false) l -> forall (m : memory), exec_list l m a = m a.
Proof. induction 1; cbn; intros; auto. rewrite IHForall. now apply exec_other. Qed.

(* where nothing arrived *)
Lemma arrive_out rs pay a : forall (m : memory),
  (forall r, In r rs -> inside (place r) (length (pay (peer r))) a = false) -> arrive_all rs pay m a = m a.
Proof.
  induction rs as [|r rs IH]; [auto|]; intros m H. rewrite arrive_cons, IH by (intros; apply H; now right).
  unfold write_mem. now rewrite (H r) by now left.
Qed.
(* where something arrived: regions do not overlap *)
Definition apart (rs : list request) : Prop :=
  forall r r' a, In r rs -> In r' rs -> inside (place r) (len r) a = true -> inside (place r') (len r') a = true -> r = r'.
Definition fits (rs : list request) (pay : nat -> list V) : Prop :=
  forall r, In r rs -> length (pay (peer r)) = len r.
Lemma arrive_in rs pay a r : apart rs -> fits rs pay -> In r rs -> inside (place r) (len r) a = true ->
  forall (m : memory) d, arrive_all rs pay m a = nth (snd a - snd (place r)) (pay (peer r)) d.
Proof.
  intros HA HF HI Ha. induction rs as [|r0 rs IH]; [destruct HI|].
  intros m d. rewrite arrive_cons.
  destruct (existsb (fun r' => inside (place r') (length (pay (peer r'))) a) rs) eqn:E.
  - apply existsb_exists in E. destruct E as (r' & I' & Hr').
    assert (r = r').
    { apply (HA r r' a); auto. now right. rewrite <- (HF r'); auto. now right. }
    subst r'. apply IH; auto.
    + intros x y b Ix Iy. apply HA; now right.
    + intros x Ix. apply HF. now right.
  - rewrite arrive_out.
    2:{ intros x Ix. destruct (inside (place x) _ a) eqn:Ex; auto.
        enough (existsb (fun r' => inside (place r') (length (pay (peer r'))) a) rs = true) by congruence.
        apply existsb_exists. exists x. auto. }
    destruct HI as [->|HI].
    2:{ enough (existsb (fun r' => inside (place r') (length (pay (peer r'))) a) rs = true) by congruence.
        apply existsb_exists. exists r. split; auto. rewrite HF; auto. now right. }
    unfold write_mem. rewrite (HF r) by now left. rewrite Ha. apply nth_indep.
    rewrite (HF r) by now left. apply inside_spec in Ha. lia.
Qed.

(* a line that does not touch the arriving messages can come before or after *)
Lemma write_exec i (m : memory) l v a :
  (forall b, inside l (length v) b = true -> reads i b = false /\ writes i b = false) ->
  exec i (write_mem m l v) a = write_mem (exec i m) l v a.
Proof.
  intros H.
  destruct (inside l (length v) a) eqn:Ea.
  - destruct (H a Ea) as [_ W]. rewrite exec_other by auto. unfold write_mem. rewrite Ea.
    apply nth_indep. apply inside_spec in Ea. lia.
  - unfold write_mem at 2. rewrite Ea. destruct i; cbn; unfold write_mem; rewrite ?Ea; auto.
    + destruct (inside d size a) eqn:Ed; auto.
      destruct (inside l (length v) (at_off s _)) eqn:Es; auto.
      destruct (H _ Es) as [R _]. cbn in R. apply inside_spec in Ed.
      rewrite inside_off in R by lia. discriminate.
    + destruct (inside d size a) eqn:Ed; auto.
      destruct (inside l (length v) (at_off s _)) eqn:Es; auto.
      destruct (H _ Es) as [R _]. cbn in R. apply inside_spec in Ed.
      rewrite inside_off in R by lia. discriminate.
Qed.
Lemma arrive_exec i rs pay : fits rs pay ->
  (forall r b, In r rs -> inside (place r) (len r) b = true -> reads i b = false /\ writes i b = false) ->
  forall (m : memory) a, exec i (arrive_all rs pay m) a = arrive_all rs pay (exec i m) a.
Proof.
  intros HF. revert HF. induction rs as [|r rs IH]; [auto|]; intros HF H m a.
  rewrite !arrive_cons, IH.
  - apply arrive_ext. intros b. apply write_exec. intros c. rewrite (HF r) by now left. apply H. now left.
  - intros x Ix. apply HF. now right.
  - intros x b Ix. apply H. now right.
Qed.

Lemma read_mem_ext (m m' : memory) l n :
  (forall a, inside l n a = true -> m a = m' a) -> read_mem m l n = read_mem m' l n.
Proof.
  intros H. apply map_ext_in. intros i Hi. apply in_seq in Hi. apply H. apply inside_off. lia.
Qed.
Lemma read_mem_length (m : memory) l n : length (read_mem m l n) = n.
Proof. unfold read_mem. now rewrite map_length, seq_length. Qed.
Lemma read_mem_nth (m : memory) l n i d : i < n -> nth i (read_mem m l n) d = m (at_off l i).
Proof.
  intros H. unfold read_mem.
  rewrite (nth_indep _ d (m (at_off l 0))) by (rewrite map_length, seq_length; auto).
  rewrite (map_nth (fun i => m (at_off l i))), seq_nth by auto. reflexivity.
Qed.

(* ---------- requests ---------- *)
Lemma sends_app l l' : sends_of (l ++ l') = sends_of l ++ sends_of l'.
Proof. apply flat_map_app. Qed.
Lemma recvs_app l l' : recvs_of (l ++ l') = recvs_of l ++ recvs_of l'.
Proof. apply flat_map_app. Qed.
Lemma race_app l l' : race_free (l ++ l') -> race_free l /\ race_free l'.
Proof.
  induction l as [|i l IH]; cbn; [auto|]. intros [H R]. destruct (IH R) as [A B]. split; auto. split; auto.
  destruct i; auto; apply Forall_app in H; tauto.
Qed.
Lemma in_recvs l r : In r (recvs_of l) <-> In (Irecv (place r) (len r) (peer r)) l.
Proof.
  unfold recvs_of. rewrite in_flat_map. split.
  - intros (i & Hi & H). destruct i; cbn in H; try tauto. destruct H as [<-|[]]. exact Hi.
  - intros H. eexists. split; [exact H|]. cbn. left. now destruct r.
Qed.
Lemma in_sends l r : In r (sends_of l) <-> In (Isend (place r) (len r) (peer r)) l.
Proof.
  unfold sends_of. rewrite in_flat_map. split.
  - intros (i & Hi & H). destruct i; cbn in H; try tauto. destruct H as [<-|[]]. exact Hi.
  - intros H. eexists. split; [exact H|]. cbn. left. now destruct r.
Qed.
Lemma race_recv l1 l2 r : race_free (l1 ++ l2) -> In r (recvs_of l1) ->
  Forall (fun j => forall a, inside (place r) (len r) a = true -> reads j a = false /\ writes j a = false) l2.
Proof.
  intros R H. apply in_recvs in H. apply in_split in H. destruct H as (x & y & ->).
  rewrite <- app_assoc in R. apply race_app in R. destruct R as [_ R]. cbn in R. destruct R as [R _].
  apply Forall_app in R. tauto.
Qed.
Lemma race_send l1 l2 r : race_free (l1 ++ l2) -> In r (sends_of l1) ->
  Forall (fun j => forall a, inside (place r) (len r) a = true -> writes j a = false) l2.
Proof.
  intros R H. apply in_sends in H. apply in_split in H. destruct H as (x & y & ->).
  rewrite <- app_assoc in R. apply race_app in R. destruct R as [_ R]. cbn in R. destruct R as [R _].
  apply Forall_app in R. tauto.
Qed.
(* receive buffers do not overlap, and do not overlap send buffers *)
Lemma race_apart l : race_free l -> NoDup (map peer (recvs_of l)) -> apart (recvs_of l).
Proof.
  intros R _ r r' a H H' Ha Ha'. 
  induction l as [|i l IH]; [destruct H|].
  assert (R' := R). cbn in R'. destruct R' as [R0 R1].
  cbn in H, H'. apply in_app_or in H. apply in_app_or in H'.
  destruct H as [H|H], H' as [H'|H']; auto.
  - destruct i; cbn in H, H'; try tauto. destruct H as [<-|[]], H' as [<-|[]]. reflexivity.
  - destruct i; cbn in H; try tauto. destruct H as [<-|[]]. cbn in Ha.
    apply in_recvs in H'. rewrite Forall_forall in R0. destruct (R0 _ H' a Ha) as [_ W]. cbn in W. congruence.
  - destruct i; cbn in H'; try tauto. destruct H' as [<-|[]]. cbn in Ha'.
    apply in_recvs in H. rewrite Forall_forall in R0. destruct (R0 _ H a Ha') as [_ W]. cbn in W. congruence.
Qed.
Lemma race_send_recv l r r' a : race_free l -> In r (sends_of l) -> In r' (recvs_of l) ->
  inside (place r) (len r) a = true -> inside (place r') (len r') a = false.
Proof.
  intros R H H' Ha. destruct (inside (place r') (len r') a) eqn:Ha'; auto. exfalso.
  induction l as [|i l IH]; [destruct H|].
  assert (R' := R). cbn in R'. destruct R' as [R0 R1].
  cbn in H, H'. apply in_app_or in H. apply in_app_or in H'.
  destruct H as [H|H], H' as [H'|H']; auto.
  - destruct i; cbn in H, H'; tauto.
  - destruct i; cbn in H; try tauto. destruct H as [<-|[]]. cbn in Ha.
    apply in_recvs in H'. rewrite Forall_forall in R0. pose proof (R0 _ H' a Ha) as W. cbn in W. congruence.
  - destruct i; cbn in H'; try tauto. destruct H' as [<-|[]]. cbn in Ha'.
    apply in_sends in H. rewrite Forall_forall in R0. destruct (R0 _ H a Ha') as [W _]. cbn in W. congruence.
Qed.
Lemma peer_unique rs r r' : NoDup (map peer rs) -> In r rs -> In r' rs -> peer r = peer r' -> r = r'.
Proof.
  induction rs as [|x rs IH]; cbn; [tauto|]. intros ND H H' E. inversion ND as [|? ? NI ND']; subst.
  destruct H as [->|H], H' as [->|H']; auto.
  - exfalso. apply NI. rewrite E. now apply in_map.
  - exfalso. apply NI. rewrite <- E. now apply in_map.
Qed.
Lemma find_peer rs r : NoDup (map peer rs) -> In r rs -> find (fun x => peer x =? peer r) rs = Some r.
Proof.
  intros ND H. destruct (find _ rs) as [x|] eqn:E.
  - apply find_some in E. destruct E as [I E]. apply Nat.eqb_eq in E. f_equal. eapply peer_unique; eauto.
  - exfalso. eapply find_none in E; eauto. cbn in E. now rewrite Nat.eqb_refl in E.
Qed.
(* removal of one request from the unfinished ones *)
Lemma filter_remove (rs : list request) (f : nat -> bool) l1 r l2 :
  NoDup (map peer rs) -> filter (fun x => negb (f (peer x))) rs = l1 ++ r :: l2 ->
  filter (fun x => negb (upd Nat.eq_dec f (peer r) true (peer x))) rs = l1 ++ l2.
Proof.
  intros ND E.
  assert (G : filter (fun x => negb (upd Nat.eq_dec f (peer r) true (peer x))) rs =
              filter (fun x => negb (peer x =? peer r)) (filter (fun x => negb (f (peer x))) rs)).
  { clear E ND. induction rs as [|x rs IH]; cbn; auto. unfold upd at 1. destruct (Nat.eq_dec (peer x) (peer r)) as [e|e].
    - cbn. rewrite IH. destruct (negb (f (peer x))); cbn; auto. rewrite e, Nat.eqb_refl. reflexivity.
    - rewrite IH. destruct (negb (f (peer x))); cbn; auto. apply Nat.eqb_neq in e. rewrite e. reflexivity. }
  rewrite G, E.
  assert (N2 : NoDup (map peer (l1 ++ r :: l2))).
  { rewrite <- E. clear -ND. induction rs as [|x rs IH]; cbn; [constructor|]. inversion ND; subst.
    destruct (negb _); cbn; auto. constructor; auto. intros H. apply in_map_iff in H. destruct H as (y & Ey & Hy).
    apply filter_In in Hy. apply H1. rewrite <- Ey. now apply in_map. }
  rewrite filter_app. cbn. rewrite Nat.eqb_refl. cbn.
  rewrite map_app in N2. cbn in N2.
  assert (K : forall l, (forall x, In x l -> peer x <> peer r) -> filter (fun x => negb (peer x =? peer r)) l = l).
  { intros l. induction l as [|x l IH]; cbn; auto. intros H. rewrite IH by auto.
    assert (peer x <> peer r) as e by auto. apply Nat.eqb_neq in e. now rewrite e. }
  apply NoDup_remove_2 in N2. rewrite in_app_iff in N2.
  rewrite !K; auto; intros x Hx e; apply N2; rewrite <- e; [right|left]; now apply in_map.
Qed.
End Msg.
