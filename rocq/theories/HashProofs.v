From Verif Require Import Base HashModel HashSpec.

Lemma SIZE_eq : SIZE = 256.
Proof. reflexivity. Qed.
Global Opaque SIZE.

Section Proofs.
  Context {K : Type} (keq : forall a b : K, {a = b} + {a <> b}).
  Context (null : K) (h : K -> nat).
  Hypothesis Hh : forall k, h k < SIZE.

  Notation table := (@table K).
  Notation slot := (@slot K).

  (* Generic probe loop. *)
  Fixpoint probe (fuel : nat) (stop : slot -> bool) (t : table) (i : nat) : option nat :=
    match fuel with
    | O => None
    | S f => if stop (t i) then Some i else probe f stop t (next i)
    end.

  Lemma next_add i d : (i < SIZE) -> (next i + d) mod SIZE = (i + S d) mod SIZE.
  Proof. unfold next. rewrite SIZE_eq. intros. lia. Qed.

  Lemma next_lt i : next i < SIZE.
  Proof. unfold next. rewrite SIZE_eq. lia. Qed.

  Lemma probe_hit stop t d : forall fuel i, i < SIZE -> d < fuel ->
    stop (t ((i + d) mod SIZE)) = true ->
    (forall e, e < d -> stop (t ((i + e) mod SIZE)) = false) ->
    probe fuel stop t i = Some ((i + d) mod SIZE).
  Proof.
    induction d as [|d IH]; intros fuel i Hi Hf Hs He; destruct fuel; try lia; cbn [probe].
    - replace ((i + 0) mod SIZE) with i in * by (rewrite SIZE_eq in *; lia).
      now rewrite Hs.
    - pose proof (He 0 ltac:(lia)) as H0.
      replace ((i + 0) mod SIZE) with i in H0 by (rewrite SIZE_eq in *; lia).
      rewrite H0. rewrite (IH fuel (next i)); try lia.
      + now rewrite next_add.
      + apply next_lt.
      + now rewrite next_add.
      + intros e Hlt. rewrite next_add by lia. apply He. lia.
  Qed.

  Lemma probe_none stop t : (forall j, j < SIZE -> stop (t j) = false) ->
    forall fuel i, i < SIZE -> probe fuel stop t i = None.
  Proof.
    intros H. induction fuel; intros i Hi; simpl; auto.
    rewrite H by auto. apply IHfuel, next_lt.
  Qed.

  Lemma least (P : nat -> bool) n : P n = true ->
    exists d, d <= n /\ P d = true /\ forall e, e < d -> P e = false.
  Proof.
    induction n as [n IH] using lt_wf_ind. intros Hn.
    destruct (existsb P (seq 0 n)) eqn:E.
    - apply existsb_exists in E. destruct E as (x & Hx & Px).
      apply in_seq in Hx. destruct (IH x ltac:(lia) Px) as (d & ? & ? & ?).
      exists d. repeat split; auto; lia.
    - exists n. repeat split; auto. intros e He.
      destruct (P e) eqn:Ee; auto.
      assert (existsb P (seq 0 n) = true); [|congruence].
      apply existsb_exists. exists e. split; auto. apply in_seq. lia.
  Qed.

  (* If some slot stops the loop, it ends within 256 probes. *)
  Lemma probe_ex stop t i j : i < SIZE -> j < SIZE -> stop (t j) = true ->
    exists d, d < SIZE /\ stop (t ((i + d) mod SIZE)) = true /\
      (forall e, e < d -> stop (t ((i + e) mod SIZE)) = false) /\
      forall fuel, SIZE <= fuel -> probe fuel stop t i = Some ((i + d) mod SIZE).
  Proof.
    intros Hi Hj Hs.
    destruct (least (fun d => stop (t ((i + d) mod SIZE))) ((j + SIZE - i) mod SIZE))
      as (d & Hd & Pd & Pe).
    - replace ((i + (j + SIZE - i) mod SIZE) mod SIZE) with j; auto.
      rewrite SIZE_eq in *. lia.
    - exists d. repeat split; auto.
      + rewrite SIZE_eq in *. lia.
      + intros. apply probe_hit; auto. rewrite SIZE_eq in *. lia.
  Qed.

  Definition stop_key (key : K) (s : slot) : bool :=
    match s with Free => true | Item k _ => if keq k key then true else false end.
  Definition stop_ins (s : slot) : bool := stop_key null s.
  Definition data (s : slot) : Z := match s with Free => (-1)%Z | Item _ d => d end.

  Lemma search_probe t key : forall fuel i,
    search_loop keq fuel t i key =
    match probe fuel (stop_key key) t i with Some j => Some (data (t j)) | None => None end.
  Proof.
    induction fuel; intros; simpl; auto.
    destruct (t i) as [|k d] eqn:E; simpl; try now rewrite E.
    destruct (keq k key); simpl; try now rewrite E. apply IHfuel.
  Qed.

  Lemma insert_probe t : forall fuel i,
    insert_loop keq null fuel t i = probe fuel stop_ins t i.
  Proof.
    induction fuel; intros; simpl; auto. unfold stop_ins, stop_key.
    destruct (t i) as [|k d] eqn:E; auto.
    destruct (keq k null); auto.
  Qed.

  Lemma delete_probe t key : forall fuel i,
    delete_loop keq fuel t i key =
    match probe fuel (stop_key key) t i with
    | Some j => Some (match t j with Free => None | _ => Some j end, data (t j))
    | None => None end.
  Proof.
    induction fuel; intros; simpl; auto.
    destruct (t i) as [|k d] eqn:E; simpl; try now rewrite E.
    destruct (keq k key); simpl; try now rewrite E. apply IHfuel.
  Qed.

  (* Counting slots. *)
  Definition cnt (P : slot -> bool) (t : table) : nat :=
    length (filter (fun i => P (t i)) (seq 0 SIZE)).
  Definition busy (s : slot) : bool := match s with Free => false | _ => true end.
  Definition live (s : slot) : bool :=
    match s with Free => false | Item k _ => if keq k null then false else true end.

  Definition b2n (b : bool) : nat := if b then 1 else 0.

  Lemma cnt_set_gen P (t : table) j s : forall l, NoDup l ->
    length (filter (fun i => P (set t j s i)) l) + (if in_dec Nat.eq_dec j l then b2n (P (t j)) else 0)
    = length (filter (fun i => P (t i)) l) + (if in_dec Nat.eq_dec j l then b2n (P s) else 0).
  Proof.
    induction l as [|a l IH]; intros ND; [reflexivity|].
    inversion ND as [|x y Hin ND']; subst. specialize (IH ND').
    simpl filter. unfold set, upd in *.
    destruct (Nat.eq_dec a j) as [->|Hne].
    - destruct (in_dec Nat.eq_dec j (j :: l)) as [_|n]; [|simpl in n; tauto].
      destruct (in_dec Nat.eq_dec j l); [contradiction|].
      destruct (P s) eqn:Ps, (P (t j)) eqn:Pt; simpl in *; lia.
    - destruct (in_dec Nat.eq_dec j (a :: l)) as [i1|n1];
      destruct (in_dec Nat.eq_dec j l) as [i2|n2]; simpl in *; try (exfalso; tauto);
      try (destruct i1; congruence);
      destruct (P (t a)); simpl in *; lia.
  Qed.

  Lemma cnt_set P t j s : j < SIZE ->
    cnt P (set t j s) + b2n (P (t j)) = cnt P t + b2n (P s).
  Proof.
    intros Hj. unfold cnt. pose proof (cnt_set_gen P t j s (seq 0 SIZE) (seq_NoDup _ _)) as H.
    destruct (in_dec Nat.eq_dec j (seq 0 SIZE)) as [i|n]; auto.
    exfalso. apply n. apply in_seq. lia.
  Qed.

  Lemma cnt_lt_gen P (t : table) l : length (filter (fun i => P (t i)) l) < length l ->
    exists j, In j l /\ P (t j) = false.
  Proof.
    induction l as [|a l IH]; simpl; [lia|]. intros H.
    destruct (P (t a)) eqn:Pa; [|exists a; auto]. simpl in H.
    destruct IH as (j & ? & ?); [lia|]. exists j. auto.
  Qed.

  Lemma cnt_lt P t : cnt P t < SIZE -> exists j, j < SIZE /\ P (t j) = false.
  Proof.
    intros H. unfold cnt in H. rewrite <- (seq_length SIZE 0) in H at 2.
    destruct (cnt_lt_gen P t _ H) as (j & Hin & Hj).
    exists j. split; auto. apply in_seq in Hin. apply Hin.
  Qed.

  Definition Inv (t : table) (m : @rmap K) (nl nu : nat) : Prop :=
    (forall k v, k <> null -> m k = Some v -> exists j, j < SIZE /\ t j = Item k v) /\
    (forall k v j, k <> null -> j < SIZE -> t j = Item k v -> m k = Some v) /\
    (forall k v w i j, k <> null -> i < SIZE -> j < SIZE ->
       t i = Item k v -> t j = Item k w -> i = j) /\
    (forall k v j, k <> null -> j < SIZE -> t j = Item k v ->
       exists d, d < SIZE /\ (h k + d) mod SIZE = j /\
         forall e, e < d -> t ((h k + e) mod SIZE) <> Free) /\
    (forall v j, j < SIZE -> t j = Item null v -> v = (-1)%Z) /\
    cnt live t <= nl /\ cnt busy t <= nu.

  Lemma cnt_empty P : P Free = false -> cnt P (@hash_init K) = 0.
  Proof.
    intros H. unfold cnt, hash_init. rewrite H. induction (seq 0 SIZE); simpl; auto.
  Qed.

  Lemma inv_init : Inv (@hash_init K) (@rempty K) 0 0.
  Proof.
    unfold Inv. rewrite !cnt_empty by reflexivity.
    unfold rempty, hash_init. repeat split; intros; try discriminate; lia.
  Qed.

  (* Where a lookup of [key] ends. *)
  Lemma lookup t m nl nu key : Inv t m nl nu -> key <> null ->
    m key <> None \/ nu < SIZE ->
    exists j, j < SIZE /\
      (forall fuel, SIZE <= fuel -> probe fuel (stop_key key) t (h key) = Some j) /\
      match m key with
      | Some v => t j = Item key v
      | None => t j = Free
      end.
  Proof.
    intros (I1 & I2 & I3 & I4 & I5 & I6 & I7) Hk Hcond.
    destruct (m key) as [v|] eqn:Em.
    - destruct (I1 key v Hk Em) as (j & Hj & Tj).
      destruct (I4 key v j Hk Hj Tj) as (d & Hd & Hdj & Hpath).
      exists j. repeat split; auto. intros fuel Hf. rewrite <- Hdj.
      apply probe_hit; auto; try lia.
      + rewrite Hdj, Tj. simpl. destruct (keq key key); congruence.
      + intros e He. specialize (Hpath e He).
        destruct (t ((h key + e) mod SIZE)) as [|k w] eqn:Te; [congruence|].
        simpl. destruct (keq k key) as [->|]; auto. exfalso.
        assert (((h key + e) mod SIZE) = j).
        { eapply (I3 key w v); eauto. rewrite SIZE_eq. lia. }
        pose proof (Hh key). rewrite SIZE_eq in *. lia.
    - destruct Hcond as [|Hu]; [congruence|].
      assert (Hb : cnt busy t < SIZE) by lia.
      destruct (cnt_lt _ _ Hb) as (j0 & Hj0 & Tj0).
      assert (Hstop : stop_key key (t j0) = true).
      { destruct (t j0); simpl in *; auto; discriminate. }
      destruct (probe_ex (stop_key key) t (h key) j0 (Hh key) Hj0 Hstop)
        as (d & Hd & Hs & _ & Hp).
      exists ((h key + d) mod SIZE).
      assert (((h key + d) mod SIZE) < SIZE) by (rewrite SIZE_eq; lia).
      repeat split; auto.
      destruct (t ((h key + d) mod SIZE)) as [|k w] eqn:Te; auto.
      simpl in Hs. destruct (keq k key) as [->|]; [|discriminate].
      rewrite (I2 _ _ _ Hk H Te) in Em. discriminate.
  Qed.

  Lemma set_eq (t : table) j s : set t j s j = s.
  Proof. apply upd_same. Qed.
  Lemma set_ne (t : table) j s i : i <> j -> set t j s i = t i.
  Proof. apply upd_other. Qed.

  Lemma inv_insert t m nl nu k v : Inv t m nl nu -> k <> null -> m k = None -> nl < SIZE ->
    exists j, (forall fuel, SIZE <= fuel -> probe fuel stop_ins t (h k) = Some j) /\
      Inv (set t j (Item k v)) (upd keq m k (Some v)) (S nl) (S nu).
  Proof.
    intros (I1 & I2 & I3 & I4 & I5 & I6 & I7) Hk Hm Hl.
    assert (Hb : cnt live t < SIZE) by lia.
    destruct (cnt_lt _ _ Hb) as (j0 & Hj0 & Tj0).
    assert (Hstop : stop_ins (t j0) = true).
    { unfold stop_ins, stop_key. destruct (t j0); simpl in *; auto.
      destruct (keq k0 null); auto; discriminate. }
    destruct (probe_ex stop_ins t (h k) j0 (Hh k) Hj0 Hstop) as (d & Hd & Hs & He & Hp).
    set (j := (h k + d) mod SIZE) in *.
    assert (Hj : j < SIZE) by (unfold j; rewrite SIZE_eq; lia).
    assert (Hnolive : forall k' v', k' <> null -> t j <> Item k' v').
    { intros k' v' Hk' E. rewrite E in Hs. unfold stop_ins, stop_key in Hs.
      destruct (keq k' null); congruence. }
    exists j. split; auto.
    repeat split.
    - intros k' v' Hk' Hm'. unfold upd in Hm'.
      destruct (keq k' k) as [->|Hne].
      + inversion Hm'; subst. exists j. split; auto. now rewrite set_eq.
      + destruct (I1 k' v' Hk' Hm') as (i & Hi & Ti). exists i. split; auto.
        rewrite set_ne; auto. intros ->. eapply Hnolive; eauto.
    - intros k' v' i Hk' Hi Ti. destruct (Nat.eq_dec i j) as [->|Hne].
      + rewrite set_eq in Ti. inversion Ti; subst. now rewrite upd_same.
      + rewrite set_ne in Ti by auto. rewrite upd_other.
        * eapply I2; eauto.
        * intros ->. rewrite (I2 _ _ _ Hk' Hi Ti) in Hm. discriminate.
    - intros k' v' w' a b Hk' Ha Hb' Ta Tb.
      destruct (Nat.eq_dec a j) as [->|Na], (Nat.eq_dec b j) as [->|Nb]; auto.
      + rewrite set_eq in Ta. rewrite set_ne in Tb by auto. inversion Ta; subst.
        rewrite (I2 _ _ _ Hk' Hb' Tb) in Hm. discriminate.
      + rewrite set_eq in Tb. rewrite set_ne in Ta by auto. inversion Tb; subst.
        rewrite (I2 _ _ _ Hk' Ha Ta) in Hm. discriminate.
      + rewrite set_ne in Ta, Tb by auto. eapply (I3 k'); eauto.
    - intros k' v' i Hk' Hi Ti. destruct (Nat.eq_dec i j) as [->|Hne].
      + rewrite set_eq in Ti. inversion Ti; subst.
        exists d. repeat split; auto. intros e Hlt Hf.
        specialize (He e Hlt).
        destruct (Nat.eq_dec ((h k' + e) mod SIZE) j) as [E|E].
        * rewrite E, set_eq in Hf. discriminate.
        * rewrite set_ne in Hf by auto. rewrite Hf in He. discriminate.
      + rewrite set_ne in Ti by auto.
        destruct (I4 _ _ _ Hk' Hi Ti) as (d' & Hd' & Hdi & Hpath).
        exists d'. repeat split; auto. intros e Hlt Hf.
        destruct (Nat.eq_dec ((h k' + e) mod SIZE) j) as [E|E].
        * rewrite E, set_eq in Hf. discriminate.
        * rewrite set_ne in Hf by auto. eapply Hpath; eauto.
    - intros v' i Hi Ti. destruct (Nat.eq_dec i j) as [->|Hne].
      + rewrite set_eq in Ti. inversion Ti; congruence.
      + rewrite set_ne in Ti by auto. eapply I5; eauto.
    - pose proof (cnt_set live t j (Item k v) Hj) as C. simpl in C.
      destruct (keq k null); [congruence|]. simpl in C. lia.
    - pose proof (cnt_set busy t j (Item k v) Hj) as C. simpl in C. lia.
  Qed.

  Lemma inv_delete t m nl nu k v j : Inv t m nl nu -> k <> null -> j < SIZE ->
    t j = Item k v ->
    Inv (set t j (dummy null)) (upd keq m k None) (nl - 1) nu.
  Proof.
    intros (I1 & I2 & I3 & I4 & I5 & I6 & I7) Hk Hj Tj.
    repeat split.
    - intros k' v' Hk' Hm'. unfold upd in Hm'.
      destruct (keq k' k) as [->|Hne]; [discriminate|].
      destruct (I1 k' v' Hk' Hm') as (i & Hi & Ti). exists i. split; auto.
      rewrite set_ne; auto. intros ->. congruence.
    - intros k' v' i Hk' Hi Ti. destruct (Nat.eq_dec i j) as [->|Hne].
      + rewrite set_eq in Ti. inversion Ti; congruence.
      + rewrite set_ne in Ti by auto. rewrite upd_other.
        * eapply I2; eauto.
        * intros ->. apply Hne. eapply (I3 k); eauto.
    - intros k' v' w' a b Hk' Ha Hb' Ta Tb.
      destruct (Nat.eq_dec a j) as [->|Na], (Nat.eq_dec b j) as [->|Nb]; auto.
      + rewrite set_eq in Ta. inversion Ta; congruence.
      + rewrite set_eq in Tb. inversion Tb; congruence.
      + rewrite set_ne in Ta, Tb by auto. eapply (I3 k'); eauto.
    - intros k' v' i Hk' Hi Ti. destruct (Nat.eq_dec i j) as [->|Hne].
      + rewrite set_eq in Ti. inversion Ti; congruence.
      + rewrite set_ne in Ti by auto.
        destruct (I4 _ _ _ Hk' Hi Ti) as (d' & Hd' & Hdi & Hpath).
        exists d'. repeat split; auto. intros e Hlt Hf.
        destruct (Nat.eq_dec ((h k' + e) mod SIZE) j) as [E|E].
        * rewrite E, set_eq in Hf. discriminate.
        * rewrite set_ne in Hf by auto. eapply Hpath; eauto.
    - intros v' i Hi Ti. destruct (Nat.eq_dec i j) as [->|Hne].
      + rewrite set_eq in Ti. inversion Ti; auto.
      + rewrite set_ne in Ti by auto. eapply I5; eauto.
    - pose proof (cnt_set live t j (dummy null) Hj) as C. rewrite Tj in C. simpl in C.
      destruct (keq k null); [congruence|]. destruct (keq null null); [|congruence].
      simpl in C. lia.
    - pose proof (cnt_set busy t j (dummy null) Hj) as C. rewrite Tj in C. simpl in C. lia.
  Qed.

  Lemma run_refines fuel : SIZE <= fuel -> forall os t m nl nu, Inv t m nl nu ->
    legal keq null m nl nu os ->
    exists t', hash_run keq null h fuel t os = Some (t', snd (spec_run keq m os)).
  Proof.
    intros Hf. induction os as [|o os IH]; intros t m nl nu HI HL; simpl.
    { now exists t. }
    destruct o as [k v|k|k]; simpl in HL |- *.
    - destruct HL as (Hk & Hm & Hl & HL).
      destruct (inv_insert t m nl nu k v HI Hk Hm Hl) as (j & Hp & HI').
      rewrite insert_probe, Hp by auto.
      destruct (IH _ _ _ _ HI' HL) as (t' & E). rewrite E. exists t'.
      destruct (spec_run keq (upd keq m k (Some v)) os); reflexivity.
    - destruct HL as (Hk & Hc & HL).
      destruct (lookup t m nl nu k HI Hk Hc) as (j & Hj & Hp & Hv).
      rewrite search_probe, Hp by auto.
      destruct (IH _ _ _ _ HI HL) as (t' & E). rewrite E. exists t'.
      destruct (spec_run keq m os) as (m', rs). simpl.
      unfold answer. destruct (m k); rewrite Hv; reflexivity.
    - destruct HL as (Hk & Hc & HL).
      destruct (lookup t m nl nu k HI Hk Hc) as (j & Hj & Hp & Hv).
      rewrite delete_probe, Hp by auto. unfold answer.
      destruct (m k) as [v|] eqn:Em; rewrite Hv; simpl.
      + assert (HI' := inv_delete _ _ _ _ _ _ _ HI Hk Hj Hv).
        destruct (IH _ _ _ _ HI' HL) as (t' & E). rewrite E. exists t'.
        destruct (spec_run keq (upd keq m k None) os); reflexivity.
      + assert (HI' : Inv t (upd keq m k None) nl nu).
        { destruct HI as (I1 & I2 & I3). split; [|split; [|exact I3]].
          - intros k' v' Hk' Hm'. unfold upd in Hm'. destruct (keq k' k); [discriminate|].
            now apply I1.
          - intros k' v' i Hk' Hi Ti. rewrite upd_other; [eapply I2; eauto|].
            intros ->. rewrite (I2 _ _ _ Hk' Hi Ti) in Em. discriminate. }
        destruct (IH _ _ _ _ HI' HL) as (t' & E). rewrite E. exists t'.
        destruct (spec_run keq (upd keq m k None) os); reflexivity.
  Qed.

  (* The history with fewer than 256 registrations is legal as far as bounds go. *)
  Lemma registry_refines_map fuel os : SIZE <= fuel ->
    legal keq null (@rempty K) 0 0 os ->
    exists t', hash_run keq null h fuel (@hash_init K) os
               = Some (t', snd (spec_run keq (@rempty K) os)).
  Proof. intros. eapply run_refines; eauto using inv_init. Qed.

  (* Lookup of an unknown request spins when no slot was left untouched. *)
  Lemma search_full_diverges t k : (forall j, j < SIZE -> stop_key k (t j) = false) ->
    forall fuel, hash_op keq null h fuel t (HSearch k) = None.
  Proof.
    intros H fuel. simpl. rewrite search_probe, probe_none; auto.
  Qed.

  Lemma insert_full_diverges t k v : (forall j, j < SIZE -> stop_ins (t j) = false) ->
    forall fuel, hash_op keq null h fuel t (HInsert k v) = None.
  Proof.
    intros H fuel. simpl. rewrite insert_probe, probe_none; auto.
  Qed.
End Proofs.

Lemma registry_refines_map_256 :
  forall (K : Type) (keq : forall a b : K, {a = b} + {a <> b}) (null : K) (h : K -> nat),
  (forall k, h k < 256) ->
  forall (os : list (@hop K)), legal keq null (@rempty K) 0 0 os ->
  forall fuel, 256 <= fuel ->
  exists t, hash_run keq null h fuel (@hash_init K) os
            = Some (t, snd (spec_run keq (@rempty K) os)).
Proof.
  intros. apply registry_refines_map; rewrite ?SIZE_eq; auto.
Qed.
