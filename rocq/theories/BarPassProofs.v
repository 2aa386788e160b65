From Verif Require Import Base BarPassModel BarPassSpec.

(* number of barriers before operation i *)
Fixpoint nb (p : list ln) (i : nat) : option nat :=
  match p with
  | [] => None
  | Bar :: r => option_map S (nb r i)
  | Idle :: r => nb r i
  | Op _ :: r => match i with O => Some 0 | S i' => nb r i' end
  end.

Lemma ops_app a b : ops (a ++ b) = ops a ++ ops b.
Proof. unfold ops. apply flat_map_app. Qed.
Lemma bars_app a b : bars (a ++ b) = bars a + bars b.
Proof. unfold bars. rewrite filter_app, app_length. reflexivity. Qed.

Lemma nb_app a b i : nb (a ++ b) i =
  if i <? length (ops a) then nb a i else option_map (fun n => bars a + n) (nb b (i - length (ops a))).
Proof.
  revert i. induction a as [|[| |x] a IH]; intros i; cbn [app nb].
  - cbn. rewrite Nat.sub_0_r. destruct (nb b i); reflexivity.
  - rewrite IH. change (ops (Bar :: a)) with (ops a). change (bars (Bar :: a)) with (S (bars a)).
    destruct (i <? length (ops a)); [reflexivity|]. destruct (nb b _); reflexivity.
  - rewrite IH. reflexivity.
  - change (length (ops (Op x :: a))) with (S (length (ops a))). change (bars (Op x :: a)) with (bars a).
    destruct i as [|i]; [reflexivity|]. rewrite IH. reflexivity.
Qed.

Lemma nb_spec p i n : barriers_before p i n <-> nb p i = Some n.
Proof.
  split.
  - intros (a & x & b & -> & <- & <-). rewrite nb_app, Nat.ltb_irrefl, Nat.sub_diag. cbn. f_equal. lia.
  - revert i n. induction p as [|l p IH]; intros i n H; [discriminate|]. destruct l as [| |x]; cbn [nb] in H.
    + destruct (nb p i) as [m|] eqn:E; [|discriminate]. inversion H; subst.
      destruct (IH i m E) as (a & y & b & -> & <- & <-). exists (Bar :: a), y, b. repeat split.
    + destruct (IH i n H) as (a & y & b & -> & <- & <-). exists (Idle :: a), y, b. repeat split.
    + destruct i as [|i]; [inversion H; exists [], x, p; repeat split|].
      destruct (IH i n H) as (a & y & b & -> & <- & <-). exists (Op x :: a), y, b. repeat split.
Qed.

Lemma scan_spec ls : forall f o f' k, scan f ls = (o, f', k) ->
  exists seg, o = map Op (ops seg) /\ bars seg = 0 /\ f' = f && (length (ops seg) =? 0) /\
  ls = seg ++ match k with Some r => Bar :: r | None => [] end.
Proof.
  induction ls as [|[| |x] ls IH]; intros f o f' k H; cbn [scan] in H.
  - inversion H; subst. exists []. rewrite andb_true_r. repeat split.
  - inversion H; subst. exists []. rewrite andb_true_r. repeat split.
  - destruct (IH _ _ _ _ H) as (seg & -> & B & -> & ->). exists (Idle :: seg). repeat split; assumption.
  - destruct (scan false ls) as [[o1 f1] k1] eqn:E. inversion H; subst.
    destruct (IH _ _ _ _ E) as (seg & -> & B & -> & ->). exists (Op x :: seg).
    repeat split; [assumption|]. cbn. rewrite andb_false_r. reflexivity.
Qed.
Lemma ops_map l : ops (map Op l) = l.
Proof. induction l as [|x l IH]; [reflexivity|]. cbn. f_equal. exact IH. Qed.
Lemma bars_map l : bars (map Op l) = 0.
Proof. induction l; cbn; auto. Qed.

Definition ended (d : list ln * bool * option (list ln)) : bool := match snd d with None => true | _ => false end.
Definition stopped (d : list ln * bool * option (list ln)) : bool := match snd d with None => false | _ => true end.
Definition rest (d : list ln * bool * option (list ln)) : list ln := match snd d with Some r => r | None => [] end.

(* what one round says about one core *)
Lemma core_ended f p : ended (scan f p) = true -> bars p = 0 /\ fst (fst (scan f p)) = map Op (ops p).
Proof.
  destruct (scan f p) as [[o f'] k] eqn:E. destruct (scan_spec _ _ _ _ _ E) as (seg & -> & B & -> & ->).
  unfold ended. destruct k; [discriminate|]. intros _. rewrite app_nil_r. auto.
Qed.
Lemma core_stopped f p : stopped (scan f p) = true ->
  exists seg, p = seg ++ Bar :: rest (scan f p) /\ bars seg = 0 /\ fst (fst (scan f p)) = map Op (ops seg) /\
  snd (fst (scan f p)) = f && (length (ops seg) =? 0).
Proof.
  destruct (scan f p) as [[o f'] k] eqn:E. destruct (scan_spec _ _ _ _ _ E) as (seg & -> & B & -> & ->).
  unfold stopped. destruct k; [|discriminate]. intros _. exists seg. auto.
Qed.

Lemma clean_S fuel f cores : clean (S fuel) f cores =
  let done := map (scan f) cores in
  if forallb ended done then Some (map (fun d => fst (fst d)) done)
  else if forallb stopped done then
    let flag2 := forallb (fun d => snd (fst d)) done in
    match clean fuel true (map rest done) with
    | Some out => Some (map (fun '(d, o) => fst (fst d) ++ (if flag2 then [] else [Bar]) ++ o) (combine done out))
    | None => None
    end
  else None.
Proof. reflexivity. Qed.

Lemma forallb_map {A B} (g : A -> B) h l : forallb h (map g l) = forallb (fun x => h (g x)) l.
Proof. induction l; cbn; congruence. Qed.

Lemma nth_combine {A B} (l : list A) (m : list B) : forall i a b,
  nth_error l i = Some a -> nth_error m i = Some b -> nth_error (combine l m) i = Some (a, b).
Proof.
  revert m. induction l as [|x l IH]; intros m i a b H1 H2; [destruct i; discriminate|].
  destruct m as [|y m]; [destruct i; discriminate|]. destruct i; cbn in *; [congruence|auto].
Qed.

(* ----- the main induction ----- *)
Definition result (cores cores' : list (list ln)) (phi : nat -> nat) : Prop :=
  length cores' = length cores /\
  forall r p, nth_error cores r = Some p -> exists p', nth_error cores' r = Some p' /\ ops p' = ops p /\
  bars p' <= bars p /\ bars p' = phi (bars p) /\
  forall i n, nb p i = Some n -> nb p' i = Some (phi n) /\ forall m, n < m -> phi n < phi m.
Lemma nb_ops l i n : nb (map Op l) i = Some n -> n = 0.
Proof. revert i. induction l as [|x l IH]; intros [|i] H; cbn in *; try discriminate; [congruence|eauto]. Qed.
Lemma nb_flat seg i n : bars seg = 0 -> nb seg i = Some n -> n = 0 /\ nb (map Op (ops seg)) i = Some 0 /\ i < length (ops seg).
Proof.
  revert i n. induction seg as [|[| |x] seg IH]; intros i n B H; cbn in *; try discriminate.
  - apply IH; assumption.
  - destruct i as [|i]; [inversion H; repeat split; lia|]. destruct (IH i n B H) as (-> & E & L). unfold ops in L. repeat split; [assumption|lia].
Qed.

Lemma clean_result fuel : forall f cores cores', clean fuel f cores = Some cores' ->
  exists phi, result cores cores' phi /\ forall p q, In p cores -> In q cores -> bars p = bars q.
Proof.
  induction fuel as [|fuel IH]; intros f cores cores' H; [discriminate|].
  rewrite clean_S in H. cbv zeta in H.
  destruct (forallb ended (map (scan f) cores)) eqn:E.
  { inversion H; subst; clear H. rewrite forallb_map in E. rewrite forallb_forall in E.
    assert (X : forall p, In p cores -> bars p = 0 /\ fst (fst (scan f p)) = map Op (ops p)).
    { intros p Hp. apply core_ended. apply E. assumption. }
    exists (fun n => n). split; [split; [rewrite !map_length; reflexivity|]|].
    - intros r p Hr. destruct (X p (nth_error_In _ _ Hr)) as [B O].
      exists (map Op (ops p)). rewrite map_map. rewrite (map_nth_error _ _ _ Hr), O.
      split; [reflexivity|]. rewrite ops_map, bars_map. split; [reflexivity|]. split; [lia|]. split; [lia|].
      intros i n Hn. destruct (nb_flat p i n B Hn) as (-> & N & _). split; [assumption|auto].
    - intros p q Hp Hq. destruct (X p Hp), (X q Hq). congruence. }
  destruct (forallb stopped (map (scan f) cores)) eqn:S; [|discriminate].
  set (flag2 := forallb (fun d => snd (fst d)) (map (scan f) cores)) in *.
  destruct (clean fuel true (map rest (map (scan f) cores))) as [out|] eqn:C; [|discriminate].
  inversion H; subst; clear H. destruct (IH _ _ _ C) as (phi & [L R] & Q).
  rewrite map_map in L, R, Q. rewrite map_length in L.
  rewrite forallb_map, forallb_forall in S.
  assert (X : forall p, In p cores -> exists seg, p = seg ++ Bar :: rest (scan f p) /\ bars seg = 0 /\
    fst (fst (scan f p)) = map Op (ops seg) /\ (flag2 = true -> length (ops seg) = 0)).
  { intros p Hp. destruct (core_stopped f p (S p Hp)) as (seg & S1 & S2 & S3 & S4). exists seg.
    split; [assumption|]. split; [assumption|]. split; [assumption|]. intros F.
    unfold flag2 in F. rewrite forallb_map, forallb_forall in F. specialize (F p Hp). rewrite F in S4.
    symmetry in S4. apply andb_true_iff in S4. apply Nat.eqb_eq. apply S4. }
  exists (fun n => match n with O => 0 | Datatypes.S n' => (if flag2 then 0 else 1) + phi n' end).
  split; [split|].
  - rewrite map_length, combine_length, map_length. lia.
  - intros r p Hr. destruct (X p (nth_error_In _ _ Hr)) as (seg & S1 & S2 & S3 & S4).
    destruct (R r (rest (scan f p))) as (p' & P1 & P2 & P3 & P4 & P5).
    { apply (map_nth_error (fun x => rest (scan f x)) _ _ Hr). }
    exists (map Op (ops seg) ++ (if flag2 then [] else [Bar]) ++ p').
    assert (Hb : bars p = Datatypes.S (bars (rest (scan f p)))).
    { rewrite S1 at 1. rewrite bars_app, S2. reflexivity. }
    split; [|split; [|split; [|split]]].
    + rewrite (map_nth_error _ _ _ (nth_combine _ _ _ _ _ (map_nth_error (scan f) _ _ Hr) P1)). rewrite S3. reflexivity.
    + transitivity (ops (seg ++ Bar :: rest (scan f p))); [|rewrite <- S1; reflexivity]. rewrite !ops_app, ops_map, P2. destruct flag2; reflexivity.
    + rewrite !bars_app, bars_map, Hb. destruct flag2; cbn; lia.
    + rewrite !bars_app, bars_map, Hb, P4. destruct flag2; reflexivity.
    + intros i n Hn. rewrite S1, nb_app in Hn. rewrite nb_app, ops_map, bars_map.
      destruct (i <? length (ops seg)) eqn:Ei.
      * destruct (nb_flat seg i n S2 Hn) as (-> & N & Li). split; [assumption|].
        intros m Hm. destruct m as [|m]; [lia|]. destruct flag2; [specialize (S4 eq_refl); lia|lia].
      * cbn [nb] in Hn. rewrite S2 in Hn. destruct (nb (rest (scan f p)) (i - length (ops seg))) as [n0|] eqn:N0; [|discriminate].
        cbn in Hn. inversion Hn; subst n. destruct (P5 _ _ N0) as [P6 P7]. split.
        -- destruct flag2; cbn [app nb]; rewrite P6; reflexivity.
        -- intros [|m] Hm; [lia|]. specialize (P7 m ltac:(lia)). lia.
  - intros p q Hp Hq. destruct (X p Hp) as (a & A1 & A2 & _), (X q Hq) as (b & B1 & B2 & _).
    rewrite A1, B1, !bars_app, A2, B2. change (bars (Bar :: ?l)) with (Datatypes.S (bars l)). cbn [bars].
    assert (Y := Q (rest (scan f p)) (rest (scan f q))).
    change (bars (Bar :: rest (scan f p))) with (Datatypes.S (bars (rest (scan f p)))).
    change (bars (Bar :: rest (scan f q))) with (Datatypes.S (bars (rest (scan f q)))).
    rewrite Y; [reflexivity|apply (in_map (fun x => rest (scan f x))); assumption..].
Qed.

Lemma clean_some b : forall f cores, (forall p, In p cores -> bars p = b) -> exists cores', clean (S b) f cores = Some cores'.
Proof.
  induction b as [|b IH]; intros f cores H; rewrite clean_S; cbv zeta.
  - replace (forallb ended (map (scan f) cores)) with true; [eexists; reflexivity|].
    symmetry. rewrite forallb_map, forallb_forall. intros p Hp. specialize (H p Hp).
    destruct (scan f p) as [[o f'] k] eqn:E. destruct (scan_spec _ _ _ _ _ E) as (seg & _ & B & _ & ->).
    destruct k; [|reflexivity]. rewrite bars_app in H. cbn in H. lia.
  - destruct (forallb ended (map (scan f) cores)); [eexists; reflexivity|].
    assert (X : forall p, In p cores -> stopped (scan f p) = true /\ bars (rest (scan f p)) = b).
    { intros p Hp. specialize (H p Hp). unfold rest.
      destruct (scan f p) as [[o f'] k] eqn:E. destruct (scan_spec _ _ _ _ _ E) as (seg & _ & B & _ & ->).
      rewrite bars_app, B in H. destruct k; cbn in *; [split; [reflexivity|]|lia]. unfold bars in *. lia. }
    replace (forallb stopped (map (scan f) cores)) with true.
    + destruct (IH true (map rest (map (scan f) cores))) as [out Ho].
      { intros p Hp. rewrite map_map in Hp. apply in_map_iff in Hp. destruct Hp as (q & <- & Hq). apply X. assumption. }
      rewrite Ho. eexists. reflexivity.
    + symmetry. rewrite forallb_map, forallb_forall. intros p Hp. apply X. assumption.
Qed.

Lemma clean_terminates cores :
  (exists cores', clean_barriers cores = Some cores') <-> (forall p q, In p cores -> In q cores -> bars p = bars q).
Proof.
  split.
  - intros [cores' H]. destruct (clean_result _ _ _ _ H) as (_ & _ & Q). assumption.
  - intros H. unfold clean_barriers. apply clean_some. intros p Hp. destruct cores as [|q r]; [contradiction|].
    apply H; [assumption|now left].
Qed.
Lemma clean_ops cores cores' : clean_barriers cores = Some cores' ->
  length cores' = length cores /\
  forall r p p', nth_error cores r = Some p -> nth_error cores' r = Some p' -> ops p' = ops p /\ bars p' <= bars p.
Proof.
  intros H. destruct (clean_result _ _ _ _ H) as (phi & [L R] & _). split; [assumption|].
  intros r p p' Hp Hp'. destruct (R r p Hp) as (p1 & E & O & B & _). rewrite Hp' in E. inversion E; subst. auto.
Qed.
Lemma clean_agree cores cores' : clean_barriers cores = Some cores' ->
  forall p q, In p cores' -> In q cores' -> bars p = bars q.
Proof.
  intros H. destruct (clean_result _ _ _ _ H) as (phi & [L R] & Q).
  assert (X : forall p, In p cores' -> exists p0, In p0 cores /\ bars p = phi (bars p0)).
  { intros p Hp. apply In_nth_error in Hp. destruct Hp as [r Hr].
    destruct (nth_error cores r) as [p0|] eqn:E.
    - destruct (R r p0 E) as (p1 & P1 & _ & _ & P2 & _). rewrite Hr in P1. inversion P1; subst. exists p0. split; [eapply nth_error_In; eassumption|assumption].
    - apply nth_error_None in E. assert (r < length cores') by (apply nth_error_Some; congruence). lia. }
  intros p q Hp Hq. destruct (X p Hp) as (p0 & I0 & ->), (X q Hq) as (q0 & J0 & ->). f_equal. apply Q; assumption.
Qed.
Lemma clean_order cores cores' : clean_barriers cores = Some cores' -> order_kept cores cores'.
Proof.
  intros H. destruct (clean_result _ _ _ _ H) as (phi & [L R] & _).
  intros r s p q p' q' i j Hp Hq Hp' Hq' (n & m & N & M & Lt).
  apply nb_spec in N, M. destruct (R r p Hp) as (p1 & E1 & _ & _ & _ & F1). destruct (R s q Hq) as (q1 & E2 & _ & _ & _ & F2).
  rewrite Hp' in E1. rewrite Hq' in E2. inversion E1; inversion E2; subst.
  destruct (F1 i n N) as [G1 G2], (F2 j m M) as [G3 _].
  exists (phi n), (phi m). rewrite !nb_spec. auto.
Qed.

(* the first barrier of a program is never removed *)
Lemma scan_to_bar f a b : bars a = 0 -> exists f', scan f (a ++ Bar :: b) = (map Op (ops a), f', Some b) /\ (f = false -> f' = false).
Proof.
  revert f. induction a as [|[| |x] a IH]; intros f H; cbn in *; [exists f; split; [reflexivity|auto]|discriminate| |].
  - apply IH. exact H.
  - destruct (IH false H) as (f' & -> & F). exists f'. split; [reflexivity|auto].
Qed.
Lemma clean_first_kept cores cores' r a b p' : clean_barriers cores = Some cores' ->
  nth_error cores r = Some (a ++ Bar :: b) -> bars a = 0 -> nth_error cores' r = Some p' ->
  exists b', p' = map Op (ops a) ++ Bar :: b'.
Proof.
  unfold clean_barriers. intros H Hr B Hp.
  rewrite clean_S in H; cbv zeta in H.
  destruct (scan_to_bar false a b B) as (f' & SC & F'); specialize (F' eq_refl); subst f'.
  assert (I : In (a ++ Bar :: b) cores) by (eapply nth_error_In; eassumption).
  destruct (forallb ended (map (scan false) cores)) eqn:E;
    [rewrite forallb_map, forallb_forall in E; specialize (E _ I); rewrite SC in E; discriminate|].
  destruct (forallb stopped (map (scan false) cores)); [|discriminate].
  assert (FF : forallb (fun d => snd (fst d)) (map (scan false) cores) = false)
    by (destruct (forallb (fun d : list ln * bool * option (list ln) => snd (fst d)) (map (scan false) cores)) eqn:X; [|reflexivity];
        rewrite forallb_map, forallb_forall in X; specialize (X _ I); rewrite SC in X; discriminate).
  rewrite FF in H; destruct (clean _ true _) as [out|] eqn:C; [|discriminate].
  inversion H; subst; clear H.
  rewrite nth_error_map in Hp; destruct (nth_error (combine (map (scan false) cores) out) r) as [[d o]|] eqn:D; [|discriminate].
  inversion Hp; subst; clear Hp; exists o.
  assert (D1 : nth_error (map (scan false) cores) r = Some d).
  { clear - D. revert out r D. generalize (map (scan false) cores) as l. intros l. induction l as [|x l IH]; intros [|y out] [|r] D; cbn in *; try discriminate;
        [inversion D; reflexivity|eapply IH; eassumption]. }
  rewrite (map_nth_error _ _ _ Hr), SC in D1; inversion D1; subst; reflexivity.
Qed.

(* ----- the other passes ----- *)
Lemma first_ops p : ops (no_first_barrier p) = ops p /\ bars (no_first_barrier p) = pred (bars p).
Proof.
  induction p as [|[| |x] p [IH1 IH2]]; cbn; auto. unfold bars, ops in *. cbn. split; [congruence|assumption].
Qed.
Lemma nb_bound p i n : nb p i = Some n -> n <= bars p.
Proof.
  revert i n. induction p as [|[| |x] p IH]; intros i n H; cbn in *; try discriminate.
  - destruct (nb p i) as [m|] eqn:E; [|discriminate]. inversion H; subst. specialize (IH _ _ E). unfold bars in *. cbn. lia.
  - apply (IH _ _ H).
  - destruct i; [inversion H; lia|]. apply (IH _ _ H).
Qed.
Lemma nb_first p i n : nb p i = Some n -> nb (no_first_barrier p) i = Some (pred n).
Proof.
  revert i n. induction p as [|[| |x] p IH]; intros i n H; cbn in *; try discriminate.
  - destruct (nb p i); [|discriminate]. inversion H; subst. reflexivity.
  - apply IH. assumption.
  - destruct i; [inversion H; reflexivity|]. apply IH. assumption.
Qed.
Lemma first_order p q i j n m : barriers_before p i n -> barriers_before q j m -> 0 < n < m ->
  separated (no_first_barrier p) i (no_first_barrier q) j.
Proof.
  rewrite !nb_spec. intros H1 H2 L. exists (pred n), (pred m). rewrite !nb_spec.
  split; [apply nb_first; assumption|]. split; [apply nb_first; assumption|]. lia.
Qed.
Lemma none_ops p p' : no_socket_barriers 1 p = Some p' -> ops p' = ops p /\ bars p' = 0.
Proof.
  cbn. intros [= <-]. induction p as [|[| |x] p [IH1 IH2]]; cbn; auto. unfold bars, ops in *. cbn. split; [congruence|assumption].
Qed.
