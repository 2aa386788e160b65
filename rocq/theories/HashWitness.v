From Coq Require FinFun.
From Verif Require Import Base HashModel HashSpec HashProofs.

Definition bytes_eq_dec : forall a b : list nat, {a = b} + {a <> b} := list_eq_dec Nat.eq_dec.

Definition wkey (i : nat) : list nat := [i; 1].

(* Register and release the requests a, a+1, ..., a+n-1, one after the other. *)
Definition churn (a n : nat) : list (@hop (list nat)) :=
  flat_map (fun i => [HInsert (wkey i) 4%Z; HDelete (wkey i)]) (seq a n).

Lemma churn_legal : forall n a used m, (forall i, m (wkey i) = None) ->
  legal bytes_eq_dec [] m 0 used (churn a n).
Proof.
  unfold churn. induction n; intros a used m Hm; [exact I|].
  cbn [seq flat_map app legal spec_op fst].
  rewrite upd_same. repeat split; auto; try lia; try discriminate.
  - left. discriminate.
  - apply IHn. intros i. unfold upd. destruct (bytes_eq_dec _ _); auto.
Qed.

Lemma churn_map : forall n a (m : @rmap (list nat)) k, m k = None ->
  fst (spec_run bytes_eq_dec m (churn a n)) k = None.
Proof.
  unfold churn. induction n; intros a m k Hm; [exact Hm|].
  cbn [seq flat_map app spec_run spec_op].
  specialize (IHn (S a) (upd bytes_eq_dec (upd bytes_eq_dec m (wkey a) (Some 4%Z)) (wkey a) None) k).
  destruct (spec_run _ _ _) as [m' rs]. simpl in *. apply IHn.
  unfold upd. destruct (bytes_eq_dec _ _); auto.
Qed.

Lemma churn_pairs : forall n a i, Nat.even i = true -> i < length (churn a n) ->
  exists k v, nth_error (churn a n) i = Some (HInsert k v) /\
              nth_error (churn a n) (S i) = Some (HDelete k).
Proof.
  unfold churn. induction n; intros a i He Hi; [simpl in Hi; lia|].
  destruct i as [|[|i]]; simpl in *; try discriminate.
  - eauto.
  - apply IHn; auto. lia.
Qed.

Definition table_of (o : option (@table (list nat) * list Z)) : @table (list nat) :=
  match o with Some (t, _) => t | None => hash_init end.
Definition answers_of (o : option (@table (list nat) * list Z)) : list Z :=
  match o with Some (_, r) => r | None => [] end.
Definition is_some (o : option (@table (list nat) * list Z)) : bool :=
  match o with Some _ => true | None => false end.

Lemma run_some o : is_some o = true -> o = Some (table_of o, answers_of o).
Proof. destruct o as [[t r]|]; simpl; congruence. Qed.

Definition wtable : table :=
  table_of (hash_run bytes_eq_dec [] hash_code 256 hash_init (churn 0 256)).
Definition wanswers : list Z :=
  answers_of (hash_run bytes_eq_dec [] hash_code 256 hash_init (churn 0 256)).

Lemma wrun : hash_run bytes_eq_dec [] hash_code 256 hash_init (churn 0 256)
  = Some (wtable, wanswers).
Proof. apply run_some. vm_compute. reflexivity. Qed.

Lemma wfull : forallb (fun j => negb (stop_key bytes_eq_dec (wkey 300) (wtable j))) (seq 0 256) = true.
Proof. vm_compute. reflexivity. Qed.

Lemma registry_diverges :
  exists (os : list (@hop (list nat))) t rs key,
    legal bytes_eq_dec [] (@rempty _) 0 0 os /\
    (forall i, Nat.even i = true -> i < length os -> exists k v,
       nth_error os i = Some (HInsert k v) /\ nth_error os (S i) = Some (HDelete k)) /\
    hash_run bytes_eq_dec [] hash_code 256 (@hash_init _) os = Some (t, rs) /\
    key <> [] /\ fst (spec_run bytes_eq_dec (@rempty _) os) key = None /\
    forall fuel, hash_op bytes_eq_dec [] hash_code fuel t (HSearch key) = None.
Proof.
  exists (churn 0 256), wtable, wanswers, (wkey 300).
  split; [apply churn_legal; reflexivity|].
  split; [apply churn_pairs|].
  split; [apply wrun|].
  split; [discriminate|].
  split; [apply churn_map; reflexivity|].
  apply search_full_diverges.
  - intros k. rewrite SIZE_eq. unfold hash_code. apply Nat.mod_upper_bound. discriminate.
  - intros j Hj. rewrite SIZE_eq in Hj. pose proof wfull as W.
    rewrite forallb_forall in W. specialize (W j).
    rewrite in_seq in W. specialize (W ltac:(lia)).
    now apply negb_true_iff in W.
Qed.

(* 256 requests registered at the same time. *)
Definition fill (n : nat) : list (@hop (list nat)) := map (fun i => HInsert (wkey i) 4%Z) (seq 0 n).

Definition ftable : table :=
  table_of (hash_run bytes_eq_dec [] hash_code 256 hash_init (fill 256)).
Definition fanswers : list Z :=
  answers_of (hash_run bytes_eq_dec [] hash_code 256 hash_init (fill 256)).

Lemma ffull : forallb (fun j => negb (stop_ins bytes_eq_dec [] (ftable j))) (seq 0 256) = true.
Proof. vm_compute. reflexivity. Qed.

Lemma frun : hash_run bytes_eq_dec [] hash_code 256 hash_init (fill 256)
  = Some (ftable, fanswers).
Proof. apply run_some. vm_compute. reflexivity. Qed.

Lemma registration_diverges :
  exists (os : list (@hop (list nat))) t rs,
    length os = 256 /\
    (forall o, In o os -> exists k v, o = HInsert k v /\ k <> []) /\
    NoDup os /\
    hash_run bytes_eq_dec [] hash_code 256 (@hash_init _) os = Some (t, rs) /\
    forall key v fuel, hash_op bytes_eq_dec [] hash_code fuel t (HInsert key v) = None.
Proof.
  exists (fill 256), ftable, fanswers.
  split; [reflexivity|].
  split; [|split; [|split; [apply frun|]]].
  - intros o Ho. unfold fill in Ho. apply in_map_iff in Ho.
    destruct Ho as (i & <- & _). exists (wkey i), 4%Z. split; auto. discriminate.
  - unfold fill. apply FinFun.Injective_map_NoDup; [|apply seq_NoDup].
    intros i j H. inversion H. reflexivity.
  - intros key v. apply insert_full_diverges.
    + intros k. rewrite SIZE_eq. unfold hash_code. apply Nat.mod_upper_bound. discriminate.
    + intros j Hj. rewrite SIZE_eq in Hj. pose proof ffull as W.
      rewrite forallb_forall in W. specialize (W j).
      rewrite in_seq in W. specialize (W ltac:(lia)).
      now apply negb_true_iff in W.
Qed.
