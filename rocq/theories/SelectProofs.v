From Verif Require Import Base NodeModel NodeSpec NodeProofs PrimeModel SelectModel.
From Verif Require PrimeSpec PrimeProofs.
From Coq Require Import Permutation.
Local Open Scope nat_scope.

(* admissible for n cores, in a vector of which the layout is (not) in cache lines *)
Definition good (n : nat) (fits : bool) (c : choice) : Prop :=
  match c with
  | (0, f) => f <> [] /\ Forall (fun x => 0 < x) f /\ n mod hd 1 f = 0 /\
              (product f = n \/ (n <= product f /\ fits = true))
  | (1, f) => fits = false /\ exists k, f = 1 :: repeat 2 (S k) /\ 2 ^ k < n <= 2 ^ S k
  | _ => False
  end.

Lemma doubling_length k n : 2 ^ k < n <= 2 ^ S k -> forall fuel j, j <= S k -> S k - j <= fuel ->
  length (doubling fuel (2 ^ Z.of_nat j) (Z.of_nat n)) = S k - j.
Proof.
  intros Hn fuel. induction fuel as [|fuel IH]; intros j Hj Hf; cbn [doubling].
  - cbn [length]. lia.
  - destruct (Z.ltb_spec (2 ^ Z.of_nat j) (Z.of_nat n)) as [L|L].
    + cbn [length]. replace (2 ^ Z.of_nat j * 2)%Z with (2 ^ Z.of_nat (S j))%Z.
      2:{ rewrite Nat2Z.inj_succ, Z.pow_succ_r by lia. lia. }
      assert (j <= k).
      { destruct (Nat.le_gt_cases j k); auto. assert (j = S k) by lia. subst j.
        pose proof (Nat2Z.inj_pow 2 (S k)) as P. change (Z.of_nat 2) with 2%Z in P. lia. }
      rewrite IH by lia. lia.
    + destruct (Nat.eq_dec j (S k)) as [->|N]; [cbn [length]; lia|exfalso].
      pose proof (Nat2Z.inj_pow 2 j) as P. change (Z.of_nat 2) with 2%Z in P.
      assert (2 ^ j <= 2 ^ k) by (apply Nat.pow_le_mono_r; lia). lia.
Qed.

Lemma between_powers n : 2 <= n -> exists k, 2 ^ k < n <= 2 ^ S k.
Proof.
  intros Hn. exists (pred (Nat.log2_up n)).
  pose proof (Nat.log2_up_spec n ltac:(lia)) as [A B].
  pose proof (Nat.log2_up_pos n ltac:(lia)).
  replace (S (pred (Nat.log2_up n))) with (Nat.log2_up n) by lia. lia.
Qed.

Lemma pow_more j : j < 2 ^ j.
Proof. apply Nat.pow_gt_lin_r. lia. Qed.

Lemma twos_eq k n : 2 ^ k < n <= 2 ^ S k -> twos n = 1 :: repeat 2 (S k).
Proof.
  intros H. unfold twos. f_equal.
  assert (L : length (facs (Z.of_nat n)) = S k).
  { unfold facs. rewrite Nat2Z.id. change 1%Z with (2 ^ Z.of_nat 0)%Z.
    rewrite (doubling_length k n H n 0); [lia|lia|]. pose proof (pow_more k). lia. }
  rewrite <- L. clear L. induction (facs (Z.of_nat n)) as [|x l IH]; [reflexivity|].
  cbn [map length repeat]. now f_equal.
Qed.
Lemma twos_one : twos 1 = [1]. Proof. reflexivity. Qed.

Lemma product_app a b : product (a ++ b) = product a * product b.
Proof. unfold product. induction a as [|x a IH]; cbn [app fold_right]; [lia|]. rewrite IH. lia. Qed.
Lemma fold_product l : forall a, fold_left Nat.mul l a = a * product l.
Proof. induction l as [|x l IH]; intros a; cbn [fold_left product fold_right]; [lia|]. rewrite IH. unfold product. lia. Qed.

Lemma twos_good n : 0 < n -> good n true (0, twos n).
Proof.
  intros Hn. cbn [good]. destruct (Nat.eq_dec n 1) as [->|N1].
  { rewrite twos_one. repeat split; [discriminate|repeat constructor|]. now left. }
  destruct (between_powers n ltac:(lia)) as (k & Hk). rewrite (twos_eq k n Hk).
  refine (conj _ (conj _ (conj _ _))).
  - discriminate.
  - constructor; [lia|]. apply Forall_forall. intros x I. apply repeat_spec in I. lia.
  - cbn [hd]. apply Nat.mod_1_r.
  - right. split; auto. change (1 :: repeat 2 (S k)) with ([1] ++ repeat 2 (S k)).
    rewrite product_app, product_twos. cbn [product fold_right]. lia.
Qed.

Lemma candidate_good n fits i : 0 < n -> good n fits (0, candidate (plain_prime_factors n) i).
Proof.
  intros Hn. destruct (PrimeProofs.plain_ok n Hn) as [P Q]. set (fs := plain_prime_factors n) in *.
  assert (P' : product fs = n) by exact P.
  assert (pos : Forall (fun x => 0 < x) fs).
  { apply Forall_forall. intros x I. destruct (Q x I). lia. }
  assert (S : product (firstn i fs) * product (skipn i fs) = n).
  { rewrite <- product_app, firstn_skipn. exact P'. }
  assert (0 < product (firstn i fs)).
  { destruct (product (firstn i fs)); lia. }
  cbn [good]. unfold candidate. rewrite fold_product, Nat.mul_1_l. refine (conj _ (conj _ (conj _ _))).
  - discriminate.
  - constructor; auto. apply Forall_forall. intros x I.
    apply (proj1 (Forall_forall _ _) pos). rewrite <- (firstn_skipn i fs). apply in_or_app. now right.
  - cbn [hd]. rewrite <- S, Nat.mul_comm. apply Nat.mod_mul. lia.
  - left. cbn [product fold_right]. exact S.
Qed.

Lemma not_power n : 0 < n -> power_of_two n = false -> 2 <= n.
Proof. intros H E. destruct n as [|[|n]]; [lia|discriminate|lia]. Qed.

(* what holds of the choice after the loop *)
Lemma best_keep (P : choice -> Prop) (time : choice -> Z) (cand : nat -> list nat) : (forall i, P (0, cand i)) ->
  forall l start, (fst start = None \/ P (snd start)) ->
  let r := fold_left (fun (best : option Z * choice) i =>
        let c := (0, cand i) in
        if below (time c) (fst best) then (Some (time c), c) else best) l start in
  (fst r <> None -> P (snd r)) /\ (l <> [] -> fst r <> None).
Proof.
  intros H. induction l as [|i l IH]; intros start S; cbn [fold_left].
  - split; [|congruence]. intros N. destruct S; tauto.
  - cbn zeta. destruct (below (time (0, cand i)) (fst start)) eqn:B.
    + destruct (IH (Some (time (0, cand i)), (0, cand i))) as [A C]; [right; apply H|].
      split; [exact A|]. intros _. clear IH A. destruct l; [cbn; discriminate|apply C; discriminate].
    + destruct (IH start) as [A C]; [exact S|]. split; [exact A|]. intros _.
      destruct l as [|j l]; [|apply C; discriminate]. cbn. destruct (fst start); [discriminate|discriminate].
Qed.

Lemma measured_good (time : choice -> Z) cores row size gpu : 0 < cores ->
  let fits := (size <=? 56)%Z && negb gpu && (row =? cores) in
  let r := measure_sockets time cores row size gpu in
  fst r <> None /\ good cores fits (snd r).
Proof.
  intros Hc fits r. subst r. unfold measure_sockets.
  change (CACHE_LINE_SIZE - OFFSET_FAST)%Z with 56%Z. fold fits. destruct fits eqn:F.
  - cbn [fst snd]. split; [discriminate|]. now apply twos_good.
  - edestruct (best_keep (good cores false) time (candidate (plain_prime_factors cores))) as [A B].
    + intros i. now apply candidate_good.
    + match goal with |- fst ?s = None \/ _ => instantiate (1 := if power_of_two cores then (None, (0, []))
                 else let c := (1, twos cores) in (Some (time c), c)) end.
      destruct (power_of_two cores) eqn:E; [now left|right]. cbn [snd good]. split; auto.
      destruct (between_powers cores (not_power cores Hc E)) as (k & Hk). exists k. split; auto. now apply twos_eq.
    + instantiate (1 := seq 0 (S (length (plain_prime_factors cores)))) in B.
      assert (N : seq 0 (S (length (plain_prime_factors cores))) <> []) by (cbn; discriminate).
      specialize (B N). split; [exact B|]. exact (A B).
Qed.

Lemma plan_good time cores row size gpu sockets one :
  0 < cores -> 0 < sockets ->
  let pl := measurement time cores row size gpu sockets one in
  0 < pl_cores pl /\ pl_cores pl * pl_sockets pl = cores * sockets /\
  (sockets <> 1 -> pl_cores pl = cores) /\
  good (pl_cores pl) ((size <=? 56)%Z && negb gpu && (row =? pl_cores pl)) (pl_choice pl).
Proof.
  intros Hc Hs pl. subst pl. unfold measurement. destruct (Nat.eqb_spec cores 1) as [->|C1].
  { cbn [pl_sockets pl_cores pl_choice]. refine (conj _ (conj _ (conj _ _))); try lia.
    cbn [good]. refine (conj _ (conj _ (conj _ _))); [discriminate|repeat constructor|reflexivity|now left]. }
  set (js := if (cores =? row) && negb one then [2; 4] else []).
  set (f := fun best j => _).
  assert (I : forall l best, Forall (fun j => 0 < j) l ->
    (0 < snd best /\ cores / snd best * snd best = cores /\ (sockets <> 1 -> snd best = 1) /\
     good (cores / snd best) ((size <=? 56)%Z && negb gpu && (row =? cores / snd best)) (snd (fst best))) ->
    (0 < snd (fold_left f l best) /\ cores / snd (fold_left f l best) * snd (fold_left f l best) = cores /\
     (sockets <> 1 -> snd (fold_left f l best) = 1) /\
     good (cores / snd (fold_left f l best)) ((size <=? 56)%Z && negb gpu && (row =? cores / snd (fold_left f l best)))
       (snd (fst (fold_left f l best))))).
  { induction l as [|j l IH]; intros best A B; [exact B|]. cbn [fold_left]. inversion_clear A as [|? ? J A'].
    apply IH; auto. unfold f. destruct ((sockets =? 1) && (cores mod j =? 0)) eqn:E; [|exact B].
    apply andb_prop in E. destruct E as [E1 E2]. apply Nat.eqb_eq in E1. apply Nat.eqb_eq in E2.
    destruct (less (fst (measure_sockets (time j) (cores / j) row size gpu)) (fst (fst best))); [|exact B].
    cbn [fst snd]. assert (D : cores / j * j = cores).
    { pose proof (Nat.div_mod cores j ltac:(lia)). lia. }
    refine (conj J (conj D (conj _ _))); [congruence|].
    apply measured_good. destruct (cores / j); lia. }
  assert (Fj : Forall (fun j => 0 < j) js).
  { unfold js. destruct ((cores =? row) && negb one); repeat constructor. }
  destruct (I js (measure_sockets (time 1) cores row size gpu, 1) Fj) as (B1 & B2 & B3 & B4).
  { cbn [fst snd]. rewrite Nat.div_1_r. refine (conj _ (conj _ (conj _ _))); auto; [lia|]. now apply measured_good. }
  set (best := fold_left f js _) in *.
  destruct (Nat.eqb_spec sockets 1) as [->|S1]; cbn [pl_sockets pl_cores pl_choice].
  - assert (0 < cores / snd best) by (destruct (cores / snd best); lia).
    refine (conj _ (conj _ (conj _ _))); auto; try lia.
  - rewrite (B3 S1), Nat.div_1_r in B4. refine (conj _ (conj _ (conj _ _))); auto; try lia.
Qed.

Lemma plan_ok time cores row size gpu sockets one p :
  0 < cores -> 0 < sockets -> row mod (cores * sockets) = 0 -> 0 < row ->
  let pl := measurement time cores row size gpu sockets one in
  n_cores p = pl_cores pl -> n_factors p = snd (pl_choice pl) -> n_gpu p = gpu ->
  length (n_counts p) = row / pl_cores pl -> bytes (n_counts p) = size ->
  Forall (fun z => (0 <= z)%Z) (n_counts p) -> (0 < bytes (n_counts p))%Z ->
  (0 < n_type p)%Z -> (exists k, bytes (n_counts p) = k * n_type p)%Z ->
  Permutation (n_fracs p) (seq 0 (length (n_counts p))) ->
  (fst (pl_choice pl) = 0 /\ copyin_ok p) \/ (fst (pl_choice pl) = 1 /\ half_ok p).
Proof.
  intros Hc Hs Hrow Rpos pl En Ef Eg El Eb H1 H2 H3 H4 H5.
  destruct (plan_good time cores row size gpu sockets one Hc Hs) as (A1 & A2 & A4 & A5).
  fold pl in A1, A2, A4, A5.
  assert (S1 : small p = ((size <=? 56)%Z && negb gpu && (row =? pl_cores pl))).
  { assert (D : row = pl_cores pl * (row / pl_cores pl)).
    { assert (D : row = cores * sockets * (row / (cores * sockets))).
      { pose proof (Nat.div_mod row (cores * sockets) ltac:(nia)). lia. }
      rewrite <- A2, <- Nat.mul_assoc in D. set (q := pl_sockets pl * _) in D.
      assert (Q : row / pl_cores pl = q) by (rewrite D, Nat.mul_comm; apply Nat.div_mul; lia). now rewrite Q. }
    unfold small. destruct (n_counts p) as [|z [|z' l]].
    - cbn in H2. lia.
    - cbn [length] in El. rewrite <- El, Nat.mul_1_r in D. rewrite (proj2 (Nat.eqb_eq _ _) D), andb_true_r, Eg.
      f_equal. cbn [bytes fold_right] in Eb. rewrite Z.add_0_r in Eb. now rewrite Eb.
    - assert (N : row <> pl_cores pl).
      { intros E. rewrite E, Nat.div_same in El by lia. cbn [length] in El. lia. }
      rewrite (proj2 (Nat.eqb_neq _ _) N), andb_false_r. reflexivity. }
  rewrite <- S1 in A5. rewrite <- En in A5. destruct (pl_choice pl) as [m f]. cbn [fst snd] in *.
  destruct m as [|[|m]]; cbn [good] in A5; [left|right|contradiction]; (split; [reflexivity|]).
  - destruct A5 as (G1 & G2 & G3 & G4). rewrite <- Ef in G1, G2, G3, G4. split; auto; [lia|].
    destruct G4 as [G4|[G4 G5]]; [now left|right]. split; auto. rewrite Eb.
    rewrite S1 in G5. apply andb_prop in G5. destruct G5 as [G5 _]. apply andb_prop in G5. destruct G5 as [G5 _]. lia.
  - destruct A5 as (G1 & G2). split; auto. now rewrite Ef.
Qed.

(* the list, with the terminating 0, fits into the array of cores + 1 entries *)
Lemma twos_fit n : 0 < n -> length (twos n) <= n.
Proof.
  intros Hn. destruct (Nat.eq_dec n 1) as [->|N1]; [exact (le_n 1)|].
  destruct (between_powers n ltac:(lia)) as (k & Hk). rewrite (twos_eq k n Hk).
  cbn [length]. rewrite repeat_length. pose proof (pow_more k). lia.
Qed.
Lemma candidate_fit n i : 0 < n -> length (candidate (plain_prime_factors n) i) <= n.
Proof.
  intros Hn. destruct (PrimeProofs.plain_ok n Hn) as [P Q]. set (fs := plain_prime_factors n) in *.
  assert (P' : product fs = n) by exact P.
  assert (L : 2 ^ length fs <= product fs).
  { clear P P'. induction fs as [|x fs IH]; [cbn; lia|]. cbn [length Nat.pow product fold_right].
    destruct (Q x (or_introl eq_refl)) as [X _]. specialize (IH (fun p I => Q p (or_intror I))).
    unfold product in IH |- *. nia. }
  cbn [candidate length]. rewrite skipn_length. pose proof (pow_more (length fs)). lia.
Qed.

Lemma measured_fit (time : choice -> Z) cores row size gpu : 0 < cores ->
  length (snd (snd (measure_sockets time cores row size gpu))) <= cores.
Proof.
  intros Hc. unfold measure_sockets. destruct ((size <=? CACHE_LINE_SIZE - OFFSET_FAST)%Z && negb gpu && (row =? cores)).
  { cbn [snd]. now apply twos_fit. }
  set (l := seq 0 _). set (start := if power_of_two cores then _ else _).
  assert (S : length (snd (snd start)) <= cores).
  { unfold start. destruct (power_of_two cores); cbn [snd]; [cbn [length]; lia|now apply twos_fit]. }
  generalize dependent start. induction l as [|i l IH]; intros start S; cbn [fold_left]; auto.
  apply IH. destruct (below _ _); auto. cbn [snd]. now apply candidate_fit.
Qed.

Lemma plan_fit time cores row size gpu sockets one : 0 < cores ->
  let pl := measurement time cores row size gpu sockets one in
  length (snd (pl_choice pl)) <= cores.
Proof.
  intros Hc pl. subst pl. unfold measurement. destruct (Nat.eqb_spec cores 1) as [->|C1]; [exact (le_n 1)|].
  set (js := if (cores =? row) && negb one then [2; 4] else []).
  set (f := fun best j => _).
  assert (I : forall l best, Forall (fun j => 0 < j) l -> length (snd (snd (fst best))) <= cores ->
    length (snd (snd (fst (fold_left f l best)))) <= cores).
  { induction l as [|j l IH]; intros best A B; [exact B|]. cbn [fold_left]. inversion_clear A as [|? ? J A'].
    apply IH; auto. unfold f. destruct ((sockets =? 1) && (cores mod j =? 0)) eqn:E; [|exact B].
    destruct (less _ _); [|exact B]. cbn [fst snd].
    apply andb_prop in E. destruct E as [_ E]. apply Nat.eqb_eq in E.
    assert (D : cores / j * j = cores) by (pose proof (Nat.div_mod cores j ltac:(lia)); lia).
    assert (0 < cores / j) by (destruct (cores / j); lia).
    pose proof (measured_fit (time j) (cores / j) row size gpu H) as M.
    exact (Nat.le_trans _ _ _ M (Nat.div_le_upper_bound cores j cores ltac:(lia) ltac:(nia))). }
  assert (Fj : Forall (fun j => 0 < j) js).
  { unfold js. destruct ((cores =? row) && negb one); repeat constructor. }
  pose proof (I js (measure_sockets (time 1) cores row size gpu, 1) Fj (measured_fit _ _ _ _ _ Hc)) as B.
  destruct (sockets =? 1); exact B.
Qed.
