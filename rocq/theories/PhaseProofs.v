(* Phased message passing: invariant of all interleavings, progress, result. *)
From Verif Require Import Base RawModel MsgProofs.

Section Phase.
Context {V : Type} (op : V -> V -> V).
Notation memory := (@memory V).
Context (N K : nat) (L : nat -> nat -> list instr) (mem0 : nat -> memory).

(* what is left behind phase m *)
Definition rest_code (m p : nat) : list instr := flat_map (fun j => Waitall :: L j p) (seq (S m) (K - m)).
Definition phased (p : nat) : list instr := L 0 p ++ rest_code 0 p.

Definition send_to (m p q : nat) : option request := find (fun r => peer r =? q) (sends_of (L m p)).

(* all processes in lock step *)
Fixpoint memat (m : nat) : nat -> memory :=
  match m with
  | O => mem0
  | S k => fun q =>
      arrive_all (recvs_of (L k q))
        (fun p => match send_to k p q with
                  | Some r => read_mem (exec_list op (L k p) (memat k p)) (place r) (len r)
                  | None => []
                  end)
        (exec_list op (L k q) (memat k q))
  end.
Definition payload (k q p : nat) : list V :=
  match send_to k p q with
  | Some r => read_mem (exec_list op (L k p) (memat k p)) (place r) (len r)
  | None => []
  end.
Definition msgs (k p q : nat) : list (list V) :=
  match send_to k p q with Some _ => [payload k q p] | None => [] end.
Definition before (k p q : nat) : list (list V) := flat_map (fun j => msgs j p q) (seq 0 k).

Record phases_ok : Prop := {
  no_wait : forall m p, m <= K -> p < N -> ~ In Waitall (L m p);
  one_send : forall m p, m <= K -> p < N -> NoDup (map peer (sends_of (L m p)));
  one_recv : forall m p, m <= K -> p < N -> NoDup (map peer (recvs_of (L m p)));
  send_match : forall m p r, m <= K -> p < N -> In r (sends_of (L m p)) ->
    peer r < N /\ exists r', In r' (recvs_of (L m (peer r))) /\ peer r' = p /\ len r' = len r;
  recv_match : forall m p r, m <= K -> p < N -> In r (recvs_of (L m p)) ->
    peer r < N /\ exists r', In r' (sends_of (L m (peer r))) /\ peer r' = p /\ len r' = len r;
  last_send : forall p, p < N -> sends_of (L K p) = [];
  last_recv : forall p, p < N -> recvs_of (L K p) = [];
  no_race : forall m p, m <= K -> p < N -> race_free (L m p) }.

Context (OK : phases_ok).

Lemma rest_step m p : m < K -> rest_code m p = Waitall :: L (S m) p ++ rest_code (S m) p.
Proof using Type. clear mem0. intros H. unfold rest_code. replace (K - m) with (S (K - S m)) by lia. reflexivity. Qed.
Lemma rest_end p : rest_code K p = [].
Proof using Type. unfold rest_code. now rewrite Nat.sub_diag. Qed.

Lemma before_S k p q : before (S k) p q = before k p q ++ msgs k p q.
Proof. unfold before. rewrite seq_S, flat_map_app. cbn. now rewrite app_nil_r. Qed.
Lemma before_le k k' p q : k <= k' -> exists l, before k' p q = before k p q ++ l.
Proof.
  induction 1 as [|k' H IH]; [exists []; now rewrite app_nil_r|]. destruct IH as [l IH].
  rewrite before_S, IH, <- app_assoc. eauto.
Qed.

Lemma send_to_in m p r : m <= K -> p < N -> In r (sends_of (L m p)) -> send_to m p (peer r) = Some r.
Proof. intros Hm Hp H. apply find_peer; auto. now apply one_send. Qed.
Lemma send_to_none m p q : ~ In q (map peer (sends_of (L m p))) -> send_to m p q = None.
Proof.
  intros H. unfold send_to. destruct (find _ _) as [r|] eqn:E; auto.
  apply find_some in E. destruct E as [I E]. apply Nat.eqb_eq in E. subst. exfalso. apply H. now apply in_map.
Qed.
Lemma recv_payload m q r : m <= K -> q < N -> In r (recvs_of (L m q)) ->
  send_to m (peer r) q <> None /\ length (payload m q (peer r)) = len r.
Proof.
  intros Hm Hq H. destruct (recv_match OK m q r Hm Hq H) as (Hp & r' & I & E & El).
  unfold payload. rewrite <- E, (send_to_in m (peer r) r') by auto. split; [discriminate|].
  now rewrite read_mem_length.
Qed.
Lemma fits_all m q rs : m <= K -> q < N -> (forall r, In r rs -> In r (recvs_of (L m q))) -> fits rs (payload m q).
Proof. intros Hm Hq H r Hr. apply recv_payload; auto. Qed.

Record inv (ph : nat -> nat) (done : nat -> list instr) (ds ar : nat -> nat -> bool) (s : system) : Prop := {
  i_ph : forall p, p < N -> ph p <= K;
  i_code : forall p, p < N -> exists todo, L (ph p) p = done p ++ todo /\
             code (procs s p) = todo ++ rest_code (ph p) p;
  i_ds : forall p q, p < N -> ds p q = true -> In q (map peer (sends_of (done p)));
  i_ar : forall p q, p < N -> ar p q = true -> In q (map peer (recvs_of (done p)));
  i_sending : forall p, p < N -> sending (procs s p) = filter (fun r => negb (ds p (peer r))) (sends_of (done p));
  i_receiving : forall p, p < N -> receiving (procs s p) = filter (fun r => negb (ar p (peer r))) (recvs_of (done p));
  i_mem : forall q a, q < N -> mem (procs s q) a =
     arrive_all (filter (fun r => ar q (peer r)) (recvs_of (done q))) (payload (ph q) q)
                (exec_list op (done q) (memat (ph q) q)) a;
  i_chan : forall p q, p < N -> q < N ->
     before (ph p) p q ++ (if ds p q then msgs (ph p) p q else []) =
     (before (ph q) p q ++ (if ar q p then msgs (ph q) p q else [])) ++ chan s p q }.
Definition Inv (s : system) : Prop := exists ph done ds ar, inv ph done ds ar s.

Context (prog : nat -> list instr) (PR : forall p, p < N -> prog p = phased p).
Lemma Inv_start : Inv (start prog mem0).
Proof.
  exists (fun _ => 0), (fun _ => []), (fun _ _ => false), (fun _ _ => false). split; cbn; intros; auto; try discriminate; try lia.
  eexists. split; [reflexivity|]. now apply PR.
Qed.

(* facts about the part of a phase that has been executed *)
Section Done.
  Context (ph : nat -> nat) (done : nat -> list instr) (ds ar : nat -> nat -> bool) (s : @system V).
  Context (H : inv ph done ds ar s).
  Lemma done_in p : p < N -> exists todo, L (ph p) p = done p ++ todo.
  Proof. intros Hp. destruct (i_code _ _ _ _ _ H p Hp) as (t & E & _). eauto. Qed.
  Lemma done_sends p r : p < N -> In r (sends_of (done p)) -> In r (sends_of (L (ph p) p)).
  Proof. intros Hp I. destruct (done_in p Hp) as [t ->]. rewrite sends_app. apply in_or_app. auto. Qed.
  Lemma done_recvs p r : p < N -> In r (recvs_of (done p)) -> In r (recvs_of (L (ph p) p)).
  Proof. intros Hp I. destruct (done_in p Hp) as [t ->]. rewrite recvs_app. apply in_or_app. auto. Qed.
  Lemma nodup_app_l {A} (l l' : list A) : NoDup (l ++ l') -> NoDup l.
  Proof.
    intros X. induction l as [|a l IH]; [constructor|]. cbn in X. inversion X; subst. constructor; auto.
    intros Y. apply H2. apply in_or_app. auto.
  Qed.
  Lemma done_nodup_s p : p < N -> NoDup (map peer (sends_of (done p))).
  Proof.
    intros Hp. pose proof (one_send OK (ph p) p (i_ph _ _ _ _ _ H p Hp) Hp) as X. destruct (done_in p Hp) as [t E].
    rewrite E, sends_app, map_app in X. now apply nodup_app_l in X.
  Qed.
  Lemma done_nodup_r p : p < N -> NoDup (map peer (recvs_of (done p))).
  Proof.
    intros Hp. pose proof (one_recv OK (ph p) p (i_ph _ _ _ _ _ H p Hp) Hp) as X. destruct (done_in p Hp) as [t E].
    rewrite E, recvs_app, map_app in X. now apply nodup_app_l in X.
  Qed.
  Lemma arrived_fits q : q < N -> fits (filter (fun r => ar q (peer r)) (recvs_of (done q))) (payload (ph q) q).
  Proof.
    intros Hq. apply fits_all; auto. now apply (i_ph _ _ _ _ _ H). intros r I. apply filter_In in I.
    apply done_recvs; tauto.
  Qed.
  Lemma all_apart q : q < N -> apart (recvs_of (L (ph q) q)).
  Proof. intros Hq. apply race_apart. apply (no_race OK); auto. now apply (i_ph _ _ _ _ _ H).
    apply (one_recv OK); auto. now apply (i_ph _ _ _ _ _ H). Qed.
End Done.

Ltac split_eq p q := destruct (Nat.eq_dec p q) as [->|]; [rewrite ?upd_same in * | rewrite ?upd_other in * by auto].

(* a line that is not waitall *)
Lemma inv_line ph done ds ar s p i rest x :
  inv ph done ds ar s -> p < N -> code (procs s p) = i :: rest -> i <> Waitall ->
  exec_instr op i rest (procs s p) = Some x ->
  inv ph (upd Nat.eq_dec done p (done p ++ [i])) ds ar (set_proc s p x).
Proof.
  intros H Hp Ec Ni Ex.
  destruct (i_code _ _ _ _ _ H p Hp) as (todo & EL & EC).
  assert (T : exists todo', todo = i :: todo' /\ rest = todo' ++ rest_code (ph p) p).
  { rewrite Ec in EC. destruct todo as [|i' todo'].
    - exfalso. cbn in EC. destruct (Nat.eq_dec (ph p) K) as [E|E].
      + rewrite E, rest_end in EC. discriminate.
      + rewrite rest_step in EC by (pose proof (i_ph _ _ _ _ _ H p Hp); lia). congruence.
    - cbn in EC. injection EC as <- ->. eauto. }
  destruct T as (todo' & -> & ->). clear EC.
  assert (XC : code x = todo' ++ rest_code (ph p) p).
  { destruct i; cbn in Ex; try congruence; injection Ex as <-; reflexivity. }
  assert (XS : sending x = sending (procs s p) ++ sends_of [i]).
  { destruct i; cbn in Ex; try congruence; injection Ex as <-; cbn; rewrite ?app_nil_r; auto. }
  assert (XR : receiving x = receiving (procs s p) ++ recvs_of [i]).
  { destruct i; cbn in Ex; try congruence; injection Ex as <-; cbn; rewrite ?app_nil_r; auto. }
  assert (XM : mem x = exec_local op i (mem (procs s p))).
  { destruct i; cbn in Ex; try congruence; injection Ex as <-; reflexivity. }
  pose proof (i_ph _ _ _ _ _ H p Hp) as Hph.
  assert (EL' : L (ph p) p = (done p ++ [i]) ++ todo') by (rewrite <- app_assoc; exact EL).
  pose proof (one_send OK (ph p) p Hph Hp) as NS. rewrite EL', sends_app, map_app in NS. apply nodup_app_l in NS.
  rewrite sends_app, map_app in NS.
  pose proof (one_recv OK (ph p) p Hph Hp) as NR. rewrite EL', recvs_app, map_app in NR. apply nodup_app_l in NR.
  rewrite recvs_app, map_app in NR.
  assert (FS : forall r, In r (sends_of [i]) -> ds p (peer r) = false).
  { intros r I. destruct (ds p (peer r)) eqn:E; auto. apply (i_ds _ _ _ _ _ H) in E; auto.
    exfalso. destruct i; cbn in I; try tauto. destruct I as [<-|[]]. cbn in E. cbn in NS.
    apply NoDup_remove_2 in NS. rewrite app_nil_r in NS. tauto. }
  assert (FR : forall r, In r (recvs_of [i]) -> ar p (peer r) = false).
  { intros r I. destruct (ar p (peer r)) eqn:E; auto. apply (i_ar _ _ _ _ _ H) in E; auto.
    exfalso. destruct i; cbn in I; try tauto. destruct I as [<-|[]]. cbn in E. cbn in NR.
    apply NoDup_remove_2 in NR. rewrite app_nil_r in NR. tauto. }
  split; cbn [procs set_proc chan].
  - apply (i_ph _ _ _ _ _ H).
  - intros p' Hp'. split_eq p' p.
    + exists todo'. split; auto.
    + now apply (i_code _ _ _ _ _ H).
  - intros p' q Hp' E. split_eq p' p.
    + rewrite sends_app, map_app. apply in_or_app. left. now apply (i_ds _ _ _ _ _ H).
    + now apply (i_ds _ _ _ _ _ H).
  - intros p' q Hp' E. split_eq p' p.
    + rewrite recvs_app, map_app. apply in_or_app. left. now apply (i_ar _ _ _ _ _ H).
    + now apply (i_ar _ _ _ _ _ H).
  - intros p' Hp'. split_eq p' p.
    + rewrite XS, (i_sending _ _ _ _ _ H p Hp), sends_app, filter_app. f_equal.
      destruct i; cbn; auto. pose proof (FS (Request partner s0 size) (or_introl eq_refl)) as G. cbn in G. now rewrite G.
    + now apply (i_sending _ _ _ _ _ H).
  - intros p' Hp'. split_eq p' p.
    + rewrite XR, (i_receiving _ _ _ _ _ H p Hp), recvs_app, filter_app. f_equal.
      destruct i; cbn; auto. pose proof (FR (Request partner d size) (or_introl eq_refl)) as G. cbn in G. now rewrite G.
    + now apply (i_receiving _ _ _ _ _ H).
  - intros q a Hq. split_eq q p.
    + rewrite XM, recvs_app, filter_app.
      replace (filter (fun r => ar p (peer r)) (recvs_of [i])) with (@nil request).
      2:{ destruct i; cbn; auto. pose proof (FR (Request partner d size) (or_introl eq_refl)) as G. cbn in G. now rewrite G. }
      rewrite app_nil_r, exec_list_app. cbn [exec_list fold_left].
      change (fold_left _ (done p) ?m) with (exec_list op (done p) m).
      rewrite <- arrive_exec.
      * apply exec_ext. intros b. now apply (i_mem _ _ _ _ _ H).
      * now apply (arrived_fits ph done ds ar s).
      * intros r b I Ib. apply filter_In in I. destruct I as [I _].
        pose proof (no_race OK (ph p) p Hph Hp) as RF. rewrite EL in RF.
        pose proof (race_recv (done p) (i :: todo') r RF I) as F. inversion F; subst. auto.
    + now apply (i_mem _ _ _ _ _ H).
  - apply (i_chan _ _ _ _ _ H).
Qed.

(* waitall *)
Lemma filter_nil {A} (f : A -> bool) l : filter f l = [] -> forall x, In x l -> f x = false.
Proof.
  intros E x Hx. destruct (f x) eqn:F; auto. exfalso.
  assert (In x (filter f l)) by (apply filter_In; auto). now rewrite E in H.
Qed.
Lemma filter_all {A} (f : A -> bool) l : (forall x, In x l -> f x = true) -> filter f l = l.
Proof.
  induction l as [|x l IH]; cbn; auto. intros H. rewrite (H x) by now left. f_equal. apply IH. auto.
Qed.
Lemma inv_wait ph done ds ar s p rest :
  inv ph done ds ar s -> p < N -> code (procs s p) = Waitall :: rest ->
  sending (procs s p) = [] -> receiving (procs s p) = [] ->
  inv (upd Nat.eq_dec ph p (S (ph p))) (upd Nat.eq_dec done p [])
      (upd Nat.eq_dec ds p (fun _ => false)) (upd Nat.eq_dec ar p (fun _ => false))
      (set_proc s p (Process rest (mem (procs s p)) [] [])).
Proof.
  intros H Hp Ec ES ER. pose proof (i_ph _ _ _ _ _ H p Hp) as Hph.
  destruct (i_code _ _ _ _ _ H p Hp) as (todo & EL & EC).
  assert (T : todo = [] /\ ph p < K /\ rest = L (S (ph p)) p ++ rest_code (S (ph p)) p).
  { rewrite Ec in EC. destruct todo as [|i' todo'].
    - cbn in EC. destruct (Nat.eq_dec (ph p) K) as [E|E].
      + rewrite E, rest_end in EC. discriminate.
      + rewrite rest_step in EC by lia. injection EC as ->. repeat split; auto. lia.
    - exfalso. cbn in EC. injection EC as <- EC. apply (no_wait OK (ph p) p Hph Hp). rewrite EL.
      apply in_or_app. right. now left. }
  destruct T as (-> & HK & ->). rewrite app_nil_r in EL. clear EC.
  rewrite (i_sending _ _ _ _ _ H p Hp) in ES. rewrite (i_receiving _ _ _ _ _ H p Hp) in ER.
  assert (DS : forall q, msgs (ph p) p q = if ds p q then msgs (ph p) p q else []).
  { intros q. destruct (ds p q) eqn:E; auto. unfold msgs. rewrite send_to_none; auto. intros I.
    rewrite EL in I. apply in_map_iff in I. destruct I as (r & Er & I). apply (filter_nil _ _ ES) in I.
    rewrite Er, E in I. discriminate. }
  assert (AR : forall q, q < N -> msgs (ph p) q p = if ar p q then msgs (ph p) q p else []).
  { intros q Hq. destruct (ar p q) eqn:E; auto. unfold msgs. rewrite send_to_none; auto. intros I.
    apply in_map_iff in I. destruct I as (r & Er & I).
    destruct (send_match OK (ph p) q r Hph Hq I) as (_ & r' & I' & Er' & _). rewrite Er in I'.
    rewrite EL in I'. apply (filter_nil _ _ ER) in I'. rewrite Er', E in I'. discriminate. }
  split; cbn [procs set_proc chan].
  - intros p' Hp'. split_eq p' p; [lia|]. now apply (i_ph _ _ _ _ _ H).
  - intros p' Hp'. split_eq p' p; [|now apply (i_code _ _ _ _ _ H)]. eexists. split; reflexivity.
  - intros p' q Hp'. split_eq p' p; [discriminate|]. now apply (i_ds _ _ _ _ _ H).
  - intros p' q Hp'. split_eq p' p; [discriminate|]. now apply (i_ar _ _ _ _ _ H).
  - intros p' Hp'. split_eq p' p; [reflexivity|]. now apply (i_sending _ _ _ _ _ H).
  - intros p' Hp'. split_eq p' p; [reflexivity|]. now apply (i_receiving _ _ _ _ _ H).
  - intros q a Hq. split_eq q p; [|now apply (i_mem _ _ _ _ _ H)]. cbn [mem recvs_of flat_map filter arrive_all fold_left exec_list].
    rewrite (i_mem _ _ _ _ _ H p a Hp). cbn [memat]. rewrite EL. rewrite filter_all; [reflexivity|].
    intros r I. apply (filter_nil _ _ ER) in I. now apply negb_false_iff.
  - intros p' q Hp' Hq. pose proof (i_chan _ _ _ _ _ H p' q Hp' Hq) as C.
    destruct (Nat.eq_dec p' p) as [->|]; [rewrite !(upd_same _ _ p)|rewrite !(upd_other _ _ p _ p') by auto];
    (destruct (Nat.eq_dec q p) as [->|]; [rewrite ?(upd_same _ _ p)|rewrite ?(upd_other _ _ p _ q) by auto]);
    rewrite ?before_S, ?app_nil_r; auto.
    + rewrite <- DS in C. rewrite <- AR in C by auto. auto.
    + rewrite <- DS in C. auto.
    + rewrite <- AR in C by auto. auto.
Qed.

(* a message leaves *)
Lemma depart_content ph done ds ar s p r :
  inv ph done ds ar s -> p < N -> In r (sends_of (done p)) ->
  send_to (ph p) p (peer r) = Some r /\
  read_mem (mem (procs s p)) (place r) (len r) = payload (ph p) (peer r) p.
Proof.
  intros H Hp I. pose proof (i_ph _ _ _ _ _ H p Hp) as Hph.
  assert (I' := done_sends ph done ds ar s H p r Hp I).
  assert (E := send_to_in (ph p) p r Hph Hp I'). split; auto.
  unfold payload. rewrite E. apply read_mem_ext. intros a Ha.
  rewrite (i_mem _ _ _ _ _ H p a Hp).
  destruct (done_in ph done ds ar s H p Hp) as [todo EL].
  pose proof (no_race OK (ph p) p Hph Hp) as RF.
  rewrite arrive_out.
  - rewrite EL, exec_list_app. symmetry. apply exec_list_other.
    rewrite EL in RF. apply (race_send (done p) todo r) in RF; auto.
    eapply Forall_impl; [|exact RF]. cbn. auto.
  - intros r' I2. pose proof (arrived_fits ph done ds ar s H p Hp r' I2) as F. rewrite F.
    apply filter_In in I2. destruct I2 as [I2 _].
    apply (race_send_recv (L (ph p) p) r r' a); auto. now apply (done_recvs ph done ds ar s H).
Qed.

Lemma inv_depart ph done ds ar s p q l1 r l2 :
  inv ph done ds ar s -> p < N -> q < N ->
  sending (procs s p) = l1 ++ r :: l2 -> peer r = q ->
  inv ph done (upd Nat.eq_dec ds p (upd Nat.eq_dec (ds p) q true)) ar
    (set_chan
        (set_proc s p (Process (code (procs s p)) (mem (procs s p)) (l1 ++ l2) (receiving (procs s p))))
        p q (chan s p q ++ [read_mem (mem (procs s p)) (place r) (len r)])).
Proof.
  intros H Hp Hq ES Er.
  assert (I : In r (sends_of (done p)) /\ ds p q = false).
  { assert (In r (sending (procs s p))) by (rewrite ES; apply in_or_app; right; now left).
    rewrite (i_sending _ _ _ _ _ H p Hp) in H0. apply filter_In in H0. rewrite Er in H0.
    split; [tauto|]. apply negb_true_iff. tauto. }
  destruct I as [I D].
  destruct (depart_content ph done ds ar s p r H Hp I) as [ST RM].
  split; cbn [procs set_proc set_chan chan].
  - apply (i_ph _ _ _ _ _ H).
  - intros p' Hp'. split_eq p' p; now apply (i_code _ _ _ _ _ H).
  - intros p' q' Hp'. split_eq p' p; [|now apply (i_ds _ _ _ _ _ H)].
    split_eq q' q; [|now apply (i_ds _ _ _ _ _ H)]. intros _. rewrite <- Er. now apply in_map.
  - apply (i_ar _ _ _ _ _ H).
  - intros p' Hp'. split_eq p' p; [|now apply (i_sending _ _ _ _ _ H)]. cbn [sending].
    rewrite <- Er. symmetry. apply filter_remove.
    + now apply (done_nodup_s ph done ds ar s H).
    + now rewrite <- (i_sending _ _ _ _ _ H p Hp).
  - intros p' Hp'. split_eq p' p; now apply (i_receiving _ _ _ _ _ H).
  - intros p' a Hp'. split_eq p' p; now apply (i_mem _ _ _ _ _ H).
  - intros p' q' Hp' Hq'. pose proof (i_chan _ _ _ _ _ H p' q' Hp' Hq') as C.
    split_eq p' p; auto. split_eq q' q; auto.
    rewrite app_assoc, <- C, D, app_nil_r, RM, Er. f_equal. unfold msgs. rewrite <- Er, ST. reflexivity.
Qed.

(* a message arrives *)
Lemma app_len_neq {A} (l l' : list A) x r : l = (l ++ l') ++ x :: r -> False.
Proof. intros E. apply (f_equal (@length A)) in E. rewrite !app_length in E. cbn in E. lia. Qed.

(* what has left, seen from the receiver *)
Lemma departed_prefix ph (ds : nat -> nat -> bool) p q :
  exists l, before (S (ph p)) p q = (before (ph p) p q ++ (if ds p q then msgs (ph p) p q else [])) ++ l.
Proof.
  rewrite before_S. destruct (ds p q).
  - exists []. now rewrite app_nil_r.
  - exists (msgs (ph p) p q). now rewrite app_nil_r.
Qed.
Lemma arrive_content ph done ds ar s p q r v vs :
  inv ph done ds ar s -> p < N -> q < N -> In r (recvs_of (done q)) -> peer r = p -> ar q p = false ->
  chan s p q = v :: vs -> msgs (ph q) p q = [v] /\ v = payload (ph q) q p.
Proof.
  intros H Hp Hq I Er A C.
  pose proof (i_chan _ _ _ _ _ H p q Hp Hq) as E. rewrite A, app_nil_r, C in E.
  pose proof (i_ph _ _ _ _ _ H q Hq) as Hph.
  assert (I' := done_recvs ph done ds ar s H q r Hq I).
  destruct (recv_payload (ph q) q r Hph Hq I') as [SN _]. rewrite Er in SN.
  assert (M : msgs (ph q) p q = [payload (ph q) q p]).
  { unfold msgs. destruct (send_to (ph q) p q); congruence. }
  enough (v = payload (ph q) q p) by (subst; auto).
  destruct (lt_eq_lt_dec (ph p) (ph q)) as [[Lt|Eq]|Gt].
  - exfalso. destruct (departed_prefix ph ds p q) as [l El].
    destruct (before_le (S (ph p)) (ph q) p q Lt) as [l' El']. rewrite El, E in El'.
    rewrite <- !app_assoc in El'. cbn in El'.
    apply (f_equal (@length _)) in El'. rewrite !app_length in El'. cbn in El'. lia.
  - rewrite Eq in E. apply app_inv_head in E. destruct (ds p q); rewrite ?M in E; congruence.
  - destruct (before_le (S (ph q)) (ph p) p q Gt) as [l El]. rewrite before_S, M in El. rewrite El in E.
    rewrite <- !app_assoc in E. apply app_inv_head in E. cbn in E. congruence.
Qed.

Lemma inv_arrive ph done ds ar s p q l1 r l2 v vs :
  inv ph done ds ar s -> p < N -> q < N ->
  receiving (procs s q) = l1 ++ r :: l2 -> peer r = p -> chan s p q = v :: vs ->
  inv ph done ds (upd Nat.eq_dec ar q (upd Nat.eq_dec (ar q) p true))
    (set_chan
        (set_proc s q (Process (code (procs s q)) (write_mem (mem (procs s q)) (place r) v)
                               (sending (procs s q)) (l1 ++ l2)))
        p q vs).
Proof.
  intros H Hp Hq ER Er C.
  assert (I : In r (recvs_of (done q)) /\ ar q p = false).
  { assert (In r (receiving (procs s q))) by (rewrite ER; apply in_or_app; right; now left).
    rewrite (i_receiving _ _ _ _ _ H q Hq) in H0. apply filter_In in H0. rewrite Er in H0.
    split; [tauto|]. apply negb_true_iff. tauto. }
  destruct I as [I A].
  destruct (arrive_content ph done ds ar s p q r v vs H Hp Hq I Er A C) as [M EV].
  pose proof (i_ph _ _ _ _ _ H q Hq) as Hph.
  assert (I' := done_recvs ph done ds ar s H q r Hq I).
  destruct (recv_payload (ph q) q r Hph Hq I') as [_ LV]. rewrite Er, <- EV in LV.
  split; cbn [procs set_proc set_chan chan].
  - apply (i_ph _ _ _ _ _ H).
  - intros p' Hp'. split_eq p' q; now apply (i_code _ _ _ _ _ H).
  - apply (i_ds _ _ _ _ _ H).
  - intros p' q' Hp'. split_eq p' q; [|now apply (i_ar _ _ _ _ _ H)].
    split_eq q' p; [|now apply (i_ar _ _ _ _ _ H)]. intros _. rewrite <- Er. now apply in_map.
  - intros p' Hp'. split_eq p' q; now apply (i_sending _ _ _ _ _ H).
  - intros p' Hp'. split_eq p' q; [|now apply (i_receiving _ _ _ _ _ H)]. cbn [receiving].
    rewrite <- Er. symmetry. apply filter_remove.
    + now apply (done_nodup_r ph done ds ar s H).
    + now rewrite <- (i_receiving _ _ _ _ _ H q Hq).
  - intros q' a Hq'. split_eq q' q; [|now apply (i_mem _ _ _ _ _ H)]. cbn [mem].
    set (ar' := upd Nat.eq_dec (ar q) p true).
    assert (SUB : forall x, In x (recvs_of (done q)) -> In x (recvs_of (L (ph q) q)))
      by (intros x; now apply (done_recvs ph done ds ar s H)).
    assert (AP := all_apart ph done ds ar s H q Hq).
    assert (F' : fits (filter (fun r => ar' (peer r)) (recvs_of (done q))) (payload (ph q) q)).
    { apply fits_all; auto. intros x Ix. apply filter_In in Ix. apply SUB. tauto. }
    assert (F := arrived_fits ph done ds ar s H q Hq).
    assert (AP' : apart (filter (fun r => ar' (peer r)) (recvs_of (done q)))).
    { intros x y b Ix Iy. apply filter_In in Ix. apply filter_In in Iy. apply AP; apply SUB; tauto. }
    assert (Ir : In r (filter (fun r => ar' (peer r)) (recvs_of (done q)))).
    { apply filter_In. split; auto. unfold ar'. now rewrite Er, upd_same. }
    unfold write_mem. rewrite LV. destruct (inside (place r) (len r) a) eqn:Ea.
    + symmetry. rewrite EV, <- Er. apply arrive_in; auto.
    + rewrite (i_mem _ _ _ _ _ H q a Hq).
      destruct (existsb (fun x => inside (place x) (len x) a) (filter (fun r => ar' (peer r)) (recvs_of (done q)))) eqn:X.
      * apply existsb_exists in X. destruct X as (x & Ix & Hx).
        assert (Ix' : In x (filter (fun r => ar q (peer r)) (recvs_of (done q)))).
        { apply filter_In in Ix. destruct Ix as [Ix Ax]. apply filter_In. split; auto. unfold ar' in Ax.
          destruct (Nat.eq_dec (peer x) p) as [e|e]; [|rewrite upd_other in Ax; auto]. exfalso. assert (x = r); [|subst; congruence].
          apply (peer_unique (recvs_of (done q))); auto. now apply (done_nodup_r ph done ds ar s H). congruence. }
        assert (AP2 : apart (filter (fun r => ar q (peer r)) (recvs_of (done q)))).
        { intros y z b Iy Iz. apply filter_In in Iy. apply filter_In in Iz. apply AP; apply SUB; tauto. }
        etransitivity; [apply arrive_in with (d := mem0 q a); eauto|]. symmetry. apply arrive_in; auto.
      * assert (Z : forall x, In x (recvs_of (done q)) -> ar' (peer x) = true -> inside (place x) (len x) a = false).
        { intros x Ix Ax. destruct (inside (place x) (len x) a) eqn:Y; auto.
          assert (existsb (fun x => inside (place x) (len x) a) (filter (fun r => ar' (peer r)) (recvs_of (done q))) = true).
          { apply existsb_exists. exists x. split; auto. apply filter_In. auto. } congruence. }
        rewrite !arrive_out; auto.
        -- intros x Ix. rewrite (F' x Ix). apply filter_In in Ix. apply Z; tauto.
        -- intros x Ix. rewrite (F x Ix). apply filter_In in Ix. destruct Ix as [Ix Ax]. apply Z; auto.
           unfold ar', upd. destruct (Nat.eq_dec (peer x) p); auto.
  - intros p' q' Hp' Hq'. pose proof (i_chan _ _ _ _ _ H p' q' Hp' Hq') as E.
    split_eq p' p.
    + split_eq q' q; [|auto]. rewrite A, app_nil_r, C in E. rewrite E, M, <- app_assoc. reflexivity.
    + split_eq q' q; auto; rewrite ?upd_other by auto; auto.
Qed.

Lemma Inv_step s t : Inv s -> step op N s t -> Inv t.
Proof.
  intros (ph & done & ds & ar & H) S. destruct S.
  - destruct i; try (eexists _, _, _, _; eapply inv_line; eauto; discriminate).
    cbn in H2. destruct (sending (procs s p)) eqn:ES; [|discriminate].
    destruct (receiving (procs s p)) eqn:ER; [|discriminate]. injection H2 as <-.
    eexists _, _, _, _. eapply inv_wait; eauto.
  - eexists _, _, _, _. eapply inv_depart; eauto.
  - eexists _, _, _, _. eapply inv_arrive; eauto.
Qed.
Lemma Inv_reach s t : reach op N s t -> Inv s -> Inv t.
Proof.
  intros R I. induction R as [|t u R IH S]; [exact I|]. exact (Inv_step t u IH S).
Qed.

(* Somebody can always go on. *)
Lemma Inv_progress s : Inv s -> forall k p, p < N -> ~ finished s p ->
  forall ph done ds ar, inv ph done ds ar s -> ph p <= k -> exists t, step op N s t.
Proof.
  intros _ k. induction k as [k IH] using lt_wf_ind. intros q Hq NF ph done ds ar H Hk.
  destruct (i_code _ _ _ _ _ H q Hq) as (todo & EL & EC).
  pose proof (i_ph _ _ _ _ _ H q Hq) as Hph.
  assert (LINE : forall p todo, p < N -> L (ph p) p = done p ++ todo -> code (procs s p) = todo ++ rest_code (ph p) p ->
            todo <> [] -> exists t, step op N s t).
  { intros p td Hp E1 E2 Nt. destruct td as [|i td]; [congruence|]. cbn in E2.
    assert (i <> Waitall).
    { intros ->. apply (no_wait OK (ph p) p (i_ph _ _ _ _ _ H p Hp) Hp). rewrite E1. apply in_or_app. right. now left. }
    destruct i; try congruence; eexists; eapply Exec; eauto; reflexivity. }
  destruct todo as [|i todo]; [|eapply LINE; eauto; discriminate].
  cbn in EC. rewrite app_nil_r in EL.
  destruct (Nat.eq_dec (ph q) K) as [E|E].
  { exfalso. apply NF. unfold finished. now rewrite EC, E, rest_end. }
  rewrite rest_step in EC by lia.
  assert (DEP : forall p r l, p < N -> sending (procs s p) = r :: l -> exists t, step op N s t).
  { intros p r l Hp ES. eexists. eapply (Depart op N s p (peer r) [] r l); eauto.
    assert (In r (sending (procs s p))) by (rewrite ES; now left).
    rewrite (i_sending _ _ _ _ _ H p Hp) in H0. apply filter_In in H0. destruct H0 as [I _].
    apply (done_sends ph done ds ar s H) in I; auto. apply (send_match OK) in I; auto. tauto. now apply (i_ph _ _ _ _ _ H). }
  destruct (sending (procs s q)) as [|r l] eqn:ES; [|eapply DEP; eauto].
  destruct (receiving (procs s q)) as [|r l] eqn:ER.
  { eexists. eapply Exec; eauto. cbn. rewrite ES, ER. reflexivity. }
  set (p := peer r).
  assert (I : In r (receiving (procs s q))) by (rewrite ER; now left).
  rewrite (i_receiving _ _ _ _ _ H q Hq) in I. apply filter_In in I. destruct I as [I A].
  apply negb_true_iff in A. fold p in A.
  apply (done_recvs ph done ds ar s H) in I; auto.
  destruct (recv_match OK (ph q) q r Hph Hq I) as (Hp & r' & I' & Er' & El'). fold p in Hp, I'.
  destruct (recv_payload (ph q) q r Hph Hq I) as [SN LP]. fold p in SN, LP.
  assert (M : msgs (ph q) p q = [payload (ph q) q p]).
  { unfold msgs. destruct (send_to (ph q) p q); congruence. }
  pose proof (i_chan _ _ _ _ _ H p q Hp Hq) as C. rewrite A, app_nil_r in C.
  assert (ARR : chan s p q <> [] -> exists t, step op N s t).
  { intros NE. destruct (chan s p q) as [|v vs] eqn:EQ; [congruence|].
    eexists. eapply (Arrive op N s p q [] r l v vs); eauto.
    assert (I2 : In r (recvs_of (done q))).
    { assert (In r (receiving (procs s q))) by (rewrite ER; now left).
      rewrite (i_receiving _ _ _ _ _ H q Hq) in H0. apply filter_In in H0. tauto. }
    destruct (arrive_content ph done ds ar s p q r v vs H Hp Hq I2 eq_refl A EQ) as [_ ->]. lia. }
  assert (LATER : ph q < ph p -> chan s p q <> []).
  { intros Lt E0. rewrite E0, app_nil_r in C. destruct (before_le (S (ph q)) (ph p) p q Lt) as [x Ex].
    rewrite Ex, before_S, M, <- !app_assoc in C. 
    apply (f_equal (@length _)) in C. rewrite !app_length in C. cbn in C. lia. }
  destruct (i_code _ _ _ _ _ H p Hp) as (tp & ELp & ECp).
  destruct (lt_eq_lt_dec (ph p) (ph q)) as [[Lt|Eq]|Gt]; [| |now apply ARR, LATER].
  - assert (NFp : ~ finished s p).
    { unfold finished. rewrite ECp, rest_step by lia. now destruct tp. }
    eapply (IH (ph p)); eauto. lia.
  - destruct tp as [|i tp]; [|eapply LINE; eauto; discriminate].
    destruct (sending (procs s p)) as [|r2 l2] eqn:ESp; [|eapply DEP; eauto].
    apply ARR. intros E0. rewrite E0, app_nil_r in C. rewrite Eq in C.
    assert (D : ds p q = true).
    { rewrite (i_sending _ _ _ _ _ H p Hp) in ESp. rewrite app_nil_r in ELp. rewrite Eq in ELp. rewrite ELp in I'.
      apply (filter_nil _ _ ESp) in I'. rewrite Er' in I'. now apply negb_false_iff. }
    rewrite D, M in C. apply (f_equal (@length _)) in C. rewrite app_length in C. cbn in C. lia.
Qed.

Theorem phased_progress s : reach op N (start prog mem0) s ->
  (forall p, p < N -> finished s p) \/ exists t, step op N s t.
Proof.
  intros R. assert (I : Inv s) by (eapply Inv_reach; eauto using Inv_start).
  destruct (forallb (fun p => match code (procs s p) with [] => true | _ => false end) (seq 0 N)) eqn:E.
  - left. intros p Hp. rewrite forallb_forall in E. specialize (E p). unfold finished.
    destruct (code (procs s p)); auto. exfalso. assert (false = true); [apply E; apply in_seq; lia|discriminate].
  - right. assert (X : exists p, p < N /\ ~ finished s p).
    { clear - E. assert (G : forall l, forallb (fun p => match code (procs s p) with [] => true | _ => false end) l = false ->
        exists p, In p l /\ ~ finished s p).
      { induction l as [|p l IH]; cbn; [discriminate|]. unfold finished at 1.
        destruct (code (procs s p)) eqn:F; cbn; intros G.
        - destruct (IH G) as (x & Hx & Nx). eauto.
        - exists p. split; auto. unfold finished. now rewrite F. }
      apply G in E. destruct E as (p & Ip & Np). apply in_seq in Ip. exists p. split; auto. lia. }
    destruct X as (p & Hp & NF). destruct I as (ph & done & ds & ar & H).
    eapply (Inv_progress s) with (k := ph p); eauto. exists ph, done, ds, ar. exact H.
Qed.

Theorem phased_result s p : reach op N (start prog mem0) s -> p < N -> finished s p ->
  forall a, mem (procs s p) a = exec_list op (L K p) (memat K p) a.
Proof.
  intros R Hp F a. assert (I : Inv s) by (eapply Inv_reach; eauto using Inv_start).
  destruct I as (ph & done & ds & ar & H).
  destruct (i_code _ _ _ _ _ H p Hp) as (todo & EL & EC). unfold finished in F. rewrite F in EC.
  symmetry in EC. apply app_eq_nil in EC. destruct EC as [-> EC]. rewrite app_nil_r in EL.
  assert (ph p = K).
  { pose proof (i_ph _ _ _ _ _ H p Hp). destruct (Nat.eq_dec (ph p) K) as [|NE]; auto.
    rewrite rest_step in EC by lia. discriminate. }
  rewrite (i_mem _ _ _ _ _ H p a Hp), H0, <- EL, H0, (last_recv OK p Hp). reflexivity.
Qed.
(* nothing is left behind *)
Theorem phased_clean s : reach op N (start prog mem0) s -> (forall p, p < N -> finished s p) ->
  forall p q, p < N -> q < N -> chan s p q = [] /\ sending (procs s p) = [] /\ receiving (procs s p) = [].
Proof.
  intros R F. assert (I : Inv s) by (eapply Inv_reach; eauto using Inv_start).
  destruct I as (ph & done & ds & ar & H).
  assert (E : forall p, p < N -> ph p = K /\ done p = L K p).
  { intros p Hp. destruct (i_code _ _ _ _ _ H p Hp) as (todo & EL & EC). specialize (F p Hp). unfold finished in F. rewrite F in EC.
    symmetry in EC. apply app_eq_nil in EC. destruct EC as [-> EC]. rewrite app_nil_r in EL.
    assert (X : ph p = K).
    { pose proof (i_ph _ _ _ _ _ H p Hp). destruct (Nat.eq_dec (ph p) K) as [|NE]; auto.
      rewrite rest_step in EC by lia. discriminate. }
    split; auto. now rewrite <- EL, X. }
  intros p q Hp Hq. destruct (E p Hp) as [P1 P2]. destruct (E q Hq) as [Q1 Q2].
  split; [|split].
  - pose proof (i_chan _ _ _ _ _ H p q Hp Hq) as C. rewrite P1, Q1 in C.
    destruct (ds p q) eqn:D.
    { apply (i_ds _ _ _ _ _ H p q Hp) in D. rewrite P2, (last_send OK p Hp) in D. destruct D. }
    destruct (ar q p) eqn:D'.
    { apply (i_ar _ _ _ _ _ H q p Hq) in D'. rewrite Q2, (last_recv OK q Hq) in D'. destruct D'. }
    rewrite !app_nil_r in C. apply (f_equal (@length _)) in C. rewrite app_length in C.
    destruct (chan s p q); auto. cbn in C. lia.
  - rewrite (i_sending _ _ _ _ _ H p Hp), P2, (last_send OK p Hp). reflexivity.
  - rewrite (i_receiving _ _ _ _ _ H p Hp), P2, (last_recv OK p Hp). reflexivity.
Qed.
End Phase.
