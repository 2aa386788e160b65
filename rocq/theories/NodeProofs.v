(* The theorems about copyin_method 0, in terms of NodeSpec.v. *)
From Verif Require Import Base BarrierModel NodeModel NodeSpec SyncProofs SyncItems TreeProofs TreeKnow NodeCode NodeCopyin NodeLayout NodeItems NodeAsm NodeZero NodeHalf.
From Coq Require Import Permutation.
Local Open Scope nat_scope.

Lemma total_bytes counts : total counts = bytes counts.
Proof. unfold total, moffset, bytes. now rewrite firstn_all. Qed.

Lemma small_fast p : is_fast p = small p.
Proof.
  unfold is_fast, small, CACHE_LINE_SIZE, OFFSET_FAST. destruct (n_counts p) as [|z [|z' l]]; cbn [length nth Nat.eqb].
  - now rewrite andb_false_r.
  - rewrite andb_true_r. rewrite andb_comm. reflexivity.
  - now rewrite andb_false_r.
Qed.

Lemma small_bytes p : small p = true -> (bytes (n_counts p) <= 56)%Z.
Proof.
  unfold small. destruct (n_counts p) as [|z [|z' l]]; try discriminate. rewrite andb_true_iff, Z.leb_le.
  cbn [bytes fold_right]. lia.
Qed.

Lemma cell_iaddr p i x : cell p i x = iaddr (is_fast p) (total (n_counts p)) i x.
Proof. unfold cell, iaddr. rewrite small_fast, total_bytes. reflexivity. Qed.

(* ---- the order of the parts ---- *)
Lemma part_length counts f : Forall (fun z => (0 <= z)%Z) counts ->
  Z.of_nat (length (part counts f)) = nth f counts 0%Z.
Proof.
  intros N. unfold part. rewrite map_length, seq_length. rewrite Z2Nat.id; auto.
  rewrite Forall_forall in N. destruct (nth_in_or_default f counts 0%Z) as [I|E]; [now apply N|lia].
Qed.

Lemma source_order counts : Forall (fun z => (0 <= z)%Z) counts -> forall fracs add x,
  (add <= x < add + lsum counts fracs)%Z ->
  source counts fracs add x = nth (Z.to_nat (x - add)) (order counts fracs) 0%Z.
Proof.
  intros N fracs. induction fracs as [|f r IH]; intros add x Hx; cbn [lsum fold_right] in Hx; [lia|].
  cbn [source order flat_map]. pose proof (part_length counts f N) as L.
  destruct (Z.ltb_spec x (add + nth f counts 0%Z)) as [Lt|Ge].
  - rewrite app_nth1 by lia. unfold part in *. rewrite map_length, seq_length in L.
    set (g := fun i => _).
    rewrite (nth_indep _ 0%Z (g 0)) by (rewrite map_length, seq_length; lia). rewrite map_nth, seq_nth by lia.
    unfold g, moffset, bytes. lia.
  - rewrite app_nth2 by lia. fold (order counts r). rewrite IH by (unfold lsum in *; lia).
    f_equal. lia.
Qed.

(* ---- factors ---- *)
Lemma factors_list l : l <> [] -> factors_ (hd 1 l) (fun s => nth s l 1) (length l) = l.
Proof.
  destruct l as [|f l]; [congruence|]. intros _. unfold factors_. cbn [hd length]. replace (S (length l) - 1) with (length l) by lia.
  f_equal. assert (Q : forall a b, map (fun s => nth s (a ++ b) 1) (seq (length a) (length b)) = b).
  { intros a b. revert a. induction b as [|x b IH]; intros a; [reflexivity|]. cbn [length seq map].
    rewrite app_nth2, Nat.sub_diag by lia. cbn [nth]. f_equal.
    replace (a ++ x :: b) with ((a ++ [x]) ++ b) by (rewrite <- app_assoc; reflexivity).
    replace (S (length a)) with (length (a ++ [x])) by (rewrite app_length; simpl; lia). apply IH. }
  apply (Q [f] l).
Qed.

Lemma product_app a b : product (a ++ b) = product a * product b.
Proof. unfold product. induction a as [|x a IH]; cbn [app fold_right]; [lia|]. rewrite IH. lia. Qed.

Lemma H_product l : l <> [] -> H (fun s => nth s l 1) (length l - 1) = product (tl l).
Proof.
  destruct l as [|f l]; [congruence|]. intros _. cbn [length tl]. replace (S (length l) - 1) with (length l) by lia.
  induction l as [|x l IH] using rev_ind; [reflexivity|].
  rewrite app_length. cbn [length]. replace (length l + 1) with (S (length l)) by lia. cbn [H].
  rewrite product_app. cbn [product fold_right]. rewrite Nat.mul_1_r.
  rewrite app_comm_cons. rewrite app_nth2 by (cbn [length]; lia). cbn [length]. rewrite Nat.sub_diag. cbn [nth]. f_equal.
  rewrite <- IH.
  assert (G : forall k, k <= length l -> H (fun s => nth s ((f :: l) ++ [x]) 1) k = H (fun s => nth s (f :: l) 1) k).
  { induction k as [|k IHk]; intros Hk; [reflexivity|]. cbn [H]. rewrite IHk by lia. f_equal.
    rewrite app_nth1; [reflexivity|]. cbn [length]. lia. }
  apply G. lia.
Qed.

Lemma D_product l : l <> [] -> D (hd 1 l) (fun s => nth s l 1) (length l - 1) = product l.
Proof. intros N. unfold D. rewrite H_product by auto. destruct l; [congruence|]. reflexivity. Qed.

(* ---- programs that agree on the cores 0 .. n-1 ---- *)
Lemma nW_micro l : nW (micro_code l) = count_waits l.
Proof.
  unfold micro_code, nW, count_waits. induction l as [|i l IH]; [reflexivity|]. cbn [flat_map].
  rewrite filter_app, app_length, IH. destruct i as [a|a|k d s z]; cbn [filter length]; try reflexivity.
  cbn [micro_of]. enough (E : forall l, filter (fun x => match x with MWait _ => true | _ => false end)
     (map (fun i => MAct k (d + Z.of_nat i)%Z (match s with Shm a => Shm (a + Z.of_nat i) | Snd a => Snd (a + Z.of_nat i) end)%Z) l) = []).
  { rewrite E. reflexivity. }
  induction l0 as [|x l0 IH']; simpl; auto.
Qed.

Section Same.
  Context {V : Type} (op : V -> V -> V) (send : nat -> Z -> V) (n : nat).
  Definition same (a b : @nstate V) : Prop :=
    (forall c, c < n -> rest a c = rest b c) /\ counter a = counter b /\ flags a = flags b /\ mem a = mem b.

  Lemma same_sym a b : same a b -> same b a.
  Proof. intros (A & B & C & D). repeat split; auto. intros c Hc. symmetry. auto. Qed.

  Lemma step_same a b c a' : same a b -> c < n -> nstep op send a c = Some a' ->
    exists b', nstep op send b c = Some b' /\ same a' b'.
  Proof.
    intros (A & B & C & D) Hc. unfold nstep. rewrite A, B, C, D by auto.
    assert (U : forall r, forall d, d < n -> upd Nat.eq_dec (rest a) c r d = upd Nat.eq_dec (rest b) c r d).
    { intros r d Hd. unfold upd. destruct (Nat.eq_dec d c); auto. }
    destruct (rest b c) as [|[x|x|k d s] r]; [discriminate| | |].
    - intros [= <-]. eexists. split; [reflexivity|]. repeat split; cbn; auto.
    - destruct (not_reached _ _); [discriminate|]. intros [= <-]. eexists. split; [reflexivity|]. repeat split; cbn; auto.
    - intros [= <-]. eexists. split; [reflexivity|]. repeat split; cbn; auto.
  Qed.

  Lemma nreach_same a b s : same a b -> nreach op send n a s -> exists s', nreach op send n b s' /\ same s s'.
  Proof.
    intros Sm. induction 1 as [|s c s1 R IH Hc St].
    - exists b. split; [constructor|auto].
    - destruct IH as (s' & R' & Sm'). destruct (step_same s s' c s1 Sm' Hc St) as (s2 & St' & Sm2).
      exists s2. split; auto. econstructor; eauto.
  Qed.
End Same.

Lemma start_same {V} n (p1 p2 : nat -> list micro) c0 (m0 : Z -> V) : (forall c, c < n -> p1 c = p2 c) ->
  same n (NS p1 (fun _ => wrap c0) (fun _ => wrap (c0 - 1)) m0) (NS p2 (fun _ => wrap c0) (fun _ => wrap (c0 - 1)) m0).
Proof. intros E. repeat split; auto. Qed.

Lemma all_or_some {V} n (s : @nstate V) : finished n s \/ exists c, c < n /\ rest s c <> [].
Proof.
  unfold finished. induction n as [|k IH]; [left; lia|]. destruct IH as [D|(c & Hc & N)].
  - destruct (rest s k) as [|i l] eqn:E.
    + left. intros c Hc. destruct (Nat.eq_dec c k) as [->|]; auto. apply D. lia.
    + right. exists k. split; [lia|congruence].
  - right. exists c. split; [lia|auto].
Qed.

Lemma work_decreases {V} (op : V -> V -> V) send n s c s' : c < n -> nstep op send s c = Some s' -> work n s' < work n s.
Proof.
  intros Hc H. destruct (nstep_rest op send _ _ _ H) as (x & q & Er & Es).
  unfold work. apply list_sum_lt with (c := c); auto.
  - rewrite Es, upd_same, Er. simpl. lia.
  - intros d. rewrite Es. unfold upd. destruct (Nat.eq_dec d c) as [->|]; auto. rewrite Er. simpl. lia.
Qed.

Section Method0.
  Context (p : node_par).
  Hypothesis ok : copyin_ok p.
  Notation n := (n_cores p).
  Notation fs := (n_factors p).
  Notation g := (hd 1 fs).
  Notation fac := (fun s => nth s fs 1).
  Notation F := (length fs).
  Notation counts := (n_counts p).
  Notation sz := (total counts).
  Notation ts := (type_size p).
  Notation fast := (is_fast p).

  Lemma f_ne : fs <> []. Proof. apply ok. Qed.
  Lemma F_pos : 0 < F. Proof. pose proof f_ne. destruct fs; [congruence|simpl; lia]. Qed.
  Lemma fac_pos s : 0 < fac s.
  Proof.
    destruct (ok_factors p ok) as (_ & A). rewrite Forall_forall in A.
    destruct (nth_in_or_default s fs 1) as [I|E]; [now apply A|rewrite E; lia].
  Qed.
  Lemma g_pos : 0 < g.
  Proof. pose proof (fac_pos 0) as Q. pose proof f_ne. destruct fs; [congruence|exact Q]. Qed.
  Lemma sz_pos : (0 < sz)%Z. Proof. rewrite total_bytes. apply ok. Qed.
  Lemma ts_pos : (0 < ts)%Z.
  Proof. unfold type_size. destruct fast; [apply sz_pos|apply ok]. Qed.
  Lemma sz_ts : exists q, (sz = q * ts)%Z.
  Proof.
    unfold type_size. destruct fast; [exists 1%Z; lia|]. rewrite total_bytes. apply ok.
  Qed.
  Lemma n_v : n <= D g fac (F - 1).
  Proof. rewrite D_product by apply f_ne. destruct (ok_product p ok) as [E|(E & _)]; lia. Qed.
  Lemma whole : D g fac (F - 1) = n \/ (sz < 128)%Z.
  Proof. rewrite D_product by apply f_ne. rewrite total_bytes. destruct (ok_product p ok) as [E|(_ & E)]; auto. Qed.
  Lemma fast_sz : fast = true -> (sz <= 56)%Z.
  Proof. rewrite small_fast, total_bytes. apply small_bytes. Qed.
  Lemma counts_nn : Forall (fun z => (0 <= z)%Z) counts. Proof. apply ok. Qed.

  Notation prog := (iprog (aws n ts sz g fac F false g (wsP n g)) (aacts n ts sz g fac F fast g (actsP counts (n_fracs p) ts g fast)) (g + F + 2)).
  Notation K := (cum (alen n ts sz g fac F false g (lenP n g)) (g + F + 2)).

  Lemma program_items c : c < n -> micro_code (program p c) = prog c.
  Proof.
    intros Hc. pose proof (zero_code n counts (n_fracs p) ts g fac F fast counts_nn (ok_fracs p ok) ts_pos sz_pos sz_ts g_pos fac_pos
      (ok_cores p ok) F_pos (ok_first p ok) n_v whole fast_sz c Hc) as Q.
    rewrite (factors_list fs f_ne) in Q. exact Q.
  Qed.

  Lemma items_ok c : c < n -> okb n c false (prog c).
  Proof.
    exact (zero_ok n counts (n_fracs p) ts g fac F fast ts_pos sz_pos sz_ts g_pos fac_pos
      (ok_cores p ok) F_pos (ok_first p ok) n_v whole c).
  Qed.
  Lemma items_K c : c < n -> nW (prog c) = K.
  Proof.
    exact (zero_K n counts (n_fracs p) ts g fac F fast ts_pos sz_pos sz_ts g_pos fac_pos
      (ok_cores p ok) F_pos (ok_first p ok) n_v whole c).
  Qed.

  Hypothesis few : (Z.of_nat (count_waits (program p 0)) < 2 ^ 31)%Z.
  Lemma K_small : (Z.of_nat K < 2 ^ 31)%Z.
  Proof.
    rewrite <- (items_K 0 (ok_cores p ok)), <- (program_items 0 (ok_cores p ok)), nW_micro. exact few.
  Qed.

  Context {V : Type} (op : V -> V -> V) (e : V) (send : nat -> Z -> V) (m0 : Z -> V) (c0 : Z).

  Lemma reach_run s : nreach op send n (nstart (program p) c0 m0) s ->
    exists t s', run n prog op send c0 m0 t s' /\ same n s s'.
  Proof.
    intros R. destruct (nreach_same op send n _ _ s (start_same n (fun c => micro_code (program p c)) prog c0 m0 program_items) R) as (s' & R' & Sm).
    destruct (nreach_run n prog op send c0 m0 s' R') as (t & Rt). eauto.
  Qed.

  Theorem copyin_value s c x : comm_monoid op e -> idle_neutral p e m0 ->
    nreach op send n (nstart (program p) c0 m0) s -> c < n -> rest s c = [] -> (0 <= x < bytes counts)%Z ->
    mem s (cell p 0 x) = reduction op e send n (nth (Z.to_nat x) (order counts (n_fracs p)) 0%Z).
  Proof.
    intros [A Cm Ne] Id R Hc Re Hx. destruct (reach_run s R) as (t & s' & Rt & (S1 & _ & _ & S4)).
    rewrite S4, cell_iaddr. rewrite S1 in Re by auto.
    rewrite (zero_value n counts (n_fracs p) ts g fac F fast counts_nn ts_pos sz_pos sz_ts g_pos fac_pos
      (ok_cores p ok) F_pos (ok_first p ok) n_v whole fast_sz op e send m0 A Cm Ne) with (c0 := c0) (t := t) (c := c); auto.
    - unfold sum, reduction, cop. f_equal. apply map_ext. intros d. unfold src.
      rewrite source_order; [now rewrite Z.sub_0_r|apply counts_nn|].
      rewrite (lsum_total counts (n_fracs p) g (ok_fracs p ok) g_pos), total_bytes. lia.
    - intros i y L Hi Hy. rewrite <- cell_iaddr. apply Id; auto.
      + rewrite <- H_product by apply f_ne. exact Hi.
      + now rewrite <- total_bytes.
    - apply K_small.
    - now rewrite total_bytes.
  Qed.

  Theorem copyin_progress s : nreach op send n (nstart (program p) c0 m0) s ->
    finished n s \/ exists c s', c < n /\ nstep op send s c = Some s' /\ work n s' < work n s.
  Proof.
    intros R. destruct (all_or_some n s) as [D|N]; [now left|right]. destruct (reach_run s R) as (t & s' & Rt & Sm).
    destruct N as (c & Hc & Nc).
    destruct (progress n prog K items_ok items_K (near_small n prog K K_small) op send c0 m0 t s' Rt) as (d & s2 & Hd & St).
    { exists c. split; auto. destruct Sm as (S1 & _). now rewrite <- S1. }
    destruct (step_same op send n s' s d s2 (same_sym n s s' Sm) Hd St) as (s3 & St' & _).
    exists d, s3. split; auto. split; auto. eapply work_decreases; eauto.
  Qed.
End Method0.

(* ---- method 1 ---- *)
Lemma power_from_eq k n : 2 ^ k < n <= 2 ^ S k -> forall j fuel, j <= S k -> S k - j <= fuel ->
  power_from fuel (2 ^ Z.of_nat j) (Z.of_nat n) = (2 ^ Z.of_nat (S k))%Z.
Proof.
  intros Hn j fuel. revert j. induction fuel as [|fuel IH]; intros j Hj Hf; cbn [power_from].
  - f_equal. lia.
  - destruct (Nat.eq_dec j (S k)) as [->|N].
    + rewrite (proj2 (Z.ltb_ge _ _)); auto. pose proof (Nat2Z.inj_pow 2 (S k)) as P. change (Z.of_nat 2) with 2%Z in P. lia.
    + rewrite (proj2 (Z.ltb_lt _ _)).
      * replace (2 ^ Z.of_nat j * 2)%Z with (2 ^ Z.of_nat (S j))%Z by (rewrite Nat2Z.inj_succ, Z.pow_succ_r by lia; lia).
        apply IH; lia.
      * pose proof (Nat2Z.inj_pow 2 j) as P. change (Z.of_nat 2) with 2%Z in P.
        assert (2 ^ j <= 2 ^ k) by (apply Nat.pow_le_mono_r; lia). lia.
Qed.

Lemma half_size_eq k n : 2 ^ k < n <= 2 ^ S k -> half_size n = Z.of_nat (2 ^ k).
Proof.
  intros Hn. unfold half_size.
  change 1%Z with (2 ^ Z.of_nat 0)%Z. rewrite (power_from_eq k n Hn 0 n).
  - rewrite Nat2Z.inj_succ, Z.pow_succ_r by lia. rewrite Z.mul_comm, Z.quot_mul by lia.
    rewrite Nat2Z.inj_pow. reflexivity.
  - lia.
  - assert (k < 2 ^ k) by (apply Nat.pow_gt_lin_r; lia). lia.
Qed.

Lemma product_twos k : product (repeat 2 k) = 2 ^ k.
Proof. unfold product. induction k as [|k IH]; [reflexivity|]. cbn [repeat fold_right Nat.pow]. rewrite IH. lia. Qed.

Section Method1.
  Context (p : node_par) (k : nat).
  Hypothesis ok : half_ok p.
  Notation n := (n_cores p).
  Notation fs := (1 :: repeat 2 k).
  Hypothesis factors_k : n_factors p = 1 :: repeat 2 (S k).
  Hypothesis cores_k : 2 ^ k < n <= 2 ^ S k.
  Notation h := (2 ^ k).
  Notation fac := (fun s => nth s fs 1).
  Notation F := (S k).
  Notation counts := (n_counts p).
  Notation sz := (total counts).
  Notation ts := (n_type p).

  Lemma facH_pos s : 0 < fac s.
  Proof.
    destruct (nth_in_or_default s fs 1) as [I|E]; [|rewrite E; lia].
    destruct I as [<-|I]; [lia|]. apply repeat_spec in I. lia.
  Qed.
  Lemma szH_pos : (0 < sz)%Z. Proof. rewrite total_bytes. apply ok. Qed.
  Lemma szH_ts : exists q, (sz = q * ts)%Z. Proof. rewrite total_bytes. apply ok. Qed.
  Lemma tsH_pos : (0 < ts)%Z. Proof. apply ok. Qed.
  Lemma fastH_false : is_fast p = false. Proof. rewrite small_fast. apply ok. Qed.
  Lemma vH : D 1 fac (F - 1) = h.
  Proof.
    pose proof (D_product fs ltac:(discriminate)) as Q. cbn [hd length] in Q. rewrite repeat_length in Q. rewrite Q.
    cbn [product fold_right]. fold (product (repeat 2 k)). rewrite product_twos. lia.
  Qed.
  Lemma nH_2h : n <= 2 * h. Proof. cbn [Nat.pow] in cores_k. lia. Qed.
  Lemma countsH_nn : Forall (fun z => (0 <= z)%Z) counts. Proof. apply ok. Qed.
  Lemma FH_pos : 0 < F. Proof. lia. Qed.

  Notation prog := (iprog (aws h ts sz 1 fac F true 3 (wsH n h)) (aacts h ts sz 1 fac F false 3 (actsH n h counts (n_fracs p) ts)) (3 + F + 2)).
  Notation K := (cum (alen h ts sz 1 fac F true 3 (lenH n)) (3 + F + 2)).

  Lemma half_items c : c < n -> micro_code (program_half p c) = prog c.
  Proof.
    intros Hc.
    pose proof (half_code n h counts (n_fracs p) ts fac F countsH_nn (hf_fracs p ok) tsH_pos szH_pos szH_ts facH_pos FH_pos
      (proj1 cores_k) nH_2h vH c Hc) as Q.
    pose proof (factors_list fs ltac:(discriminate)) as E. cbn [hd length] in E. rewrite repeat_length in E.
    rewrite E in Q. unfold program_half. rewrite (half_size_eq k n cores_k), factors_k.
    assert (Er : removelast (1 :: repeat 2 (S k)) = fs).
    { clear. change (1 :: repeat 2 (S k)) with ([1] ++ repeat 2 (S k)). 
      assert (G : repeat 2 (S k) = repeat 2 k ++ [2]) by (rewrite <- repeat_cons; reflexivity).
      rewrite G, app_assoc, removelast_last. reflexivity. }
    rewrite Er. cbn [hd]. unfold type_size. rewrite fastH_false. exact Q.
  Qed.

  Lemma itemsH_ok c : c < n -> okb n c false (prog c).
  Proof.
    exact (half_prog_ok n h counts (n_fracs p) ts fac F tsH_pos szH_pos szH_ts facH_pos FH_pos
      (proj1 cores_k) nH_2h vH c).
  Qed.
  Lemma itemsH_K c : c < n -> nW (prog c) = K.
  Proof.
    exact (half_K n h counts (n_fracs p) ts fac F tsH_pos szH_pos szH_ts facH_pos FH_pos
      (proj1 cores_k) nH_2h vH c).
  Qed.
  Lemma nH_pos : 0 < n. Proof. lia. Qed.

  Hypothesis few : (Z.of_nat (count_waits (program_half p 0)) < 2 ^ 31)%Z.
  Lemma KH_small : (Z.of_nat K < 2 ^ 31)%Z.
  Proof.
    rewrite <- (itemsH_K 0 nH_pos), <- (half_items 0 nH_pos), nW_micro. exact few.
  Qed.

  Context {V : Type} (op : V -> V -> V) (e : V) (send : nat -> Z -> V) (m0 : Z -> V) (c0 : Z).

  Lemma reachH_run s : nreach op send n (nstart (program_half p) c0 m0) s ->
    exists t s', run n prog op send c0 m0 t s' /\ same n s s'.
  Proof.
    intros R. destruct (nreach_same op send n _ _ s (start_same n (fun c => micro_code (program_half p c)) prog c0 m0 half_items) R) as (s' & R' & Sm).
    destruct (nreach_run n prog op send c0 m0 s' R') as (t & Rt). eauto.
  Qed.

  Lemma half_copyin_value s c x : comm_monoid op e ->
    nreach op send n (nstart (program_half p) c0 m0) s -> c < n -> rest s c = [] -> (0 <= x < bytes counts)%Z ->
    mem s (cell p 0 x) = reduction op e send n (nth (Z.to_nat x) (order counts (n_fracs p)) 0%Z).
  Proof.
    intros [A Cm Ne] R Hc Re Hx. destruct (reachH_run s R) as (t & s' & Rt & (S1 & _ & _ & S4)).
    rewrite S4, cell_iaddr, fastH_false. rewrite S1 in Re by auto.
    rewrite (half_value n h counts (n_fracs p) ts fac F countsH_nn tsH_pos szH_pos szH_ts facH_pos FH_pos
      (proj1 cores_k) nH_2h vH op e send m0 A Cm Ne) with (c0 := c0) (t := t) (c := c); auto.
    - unfold sum, reduction, cop. f_equal. apply map_ext. intros d. unfold src.
      rewrite source_order; [now rewrite Z.sub_0_r|apply countsH_nn|].
      rewrite (lsum_total counts (n_fracs p) 1 (hf_fracs p ok) Nat.lt_0_1), total_bytes. lia.
    - apply KH_small.
    - now rewrite total_bytes.
  Qed.

  Lemma half_copyin_progress s : nreach op send n (nstart (program_half p) c0 m0) s ->
    finished n s \/ exists c s', c < n /\ nstep op send s c = Some s' /\ work n s' < work n s.
  Proof.
    intros R. destruct (all_or_some n s) as [D|N]; [now left|right]. destruct (reachH_run s R) as (t & s' & Rt & Sm).
    destruct N as (c & Hc & Nc).
    destruct (progress n prog K itemsH_ok itemsH_K (near_small n prog K KH_small) op send c0 m0 t s' Rt) as (d & s2 & Hd & St).
    { exists c. split; auto. destruct Sm as (S1 & _). now rewrite <- S1. }
    destruct (step_same op send n s' s d s2 (same_sym n s s' Sm) Hd St) as (s3 & St' & _).
    exists d, s3. split; auto. split; auto. eapply work_decreases; eauto.
  Qed.
End Method1.
