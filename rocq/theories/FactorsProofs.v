From Verif Require Import Base FactorsModel FactorsSpec.
Local Ltac Zify.zify_post_hook ::= idtac.
Local Open Scope Z_scope.

Definition valid (ds : list Z) : Prop := Forall (fun d => 2 <= d <= FACTOR_MAX) ds.

(* ----- the odometer ----- *)
Fixpoint rank (ds : list Z) : Z :=
  match ds with [] => 0 | d :: r => (d - 2) * 12 ^ Z.of_nat (length r) + rank r end.
Lemma pow_pos k : 0 < 12 ^ Z.of_nat k. Proof. apply Z.pow_pos_nonneg; lia. Qed.
Lemma rank_range ds : valid ds -> 0 <= rank ds < 12 ^ Z.of_nat (length ds).
Proof.
  induction 1 as [|d r Hd Hr IH]; [cbn; lia|]. cbn [rank length].
  rewrite Nat2Z.inj_succ, Z.pow_succ_r by lia. assert (P := pow_pos (length r)).
  set (w := 12 ^ Z.of_nat (length r)) in *. unfold FACTOR_MAX in Hd.
  assert (0 <= (d - 2) * w) by (apply Z.mul_nonneg_nonneg; lia).
  assert ((d - 2) * w <= 11 * w) by (apply Z.mul_le_mono_nonneg_r; lia). lia.
Qed.
(* ranks compare like the first digit that differs *)
Lemma rank_head d d' r r' : valid r -> valid r' -> length r = length r' -> d < d' -> rank (d :: r) < rank (d' :: r').
Proof.
  intros V V' L H. cbn [rank]. rewrite L. assert (R := rank_range r V). assert (R' := rank_range r' V'). rewrite L in R.
  set (w := 12 ^ Z.of_nat (length r')) in *. assert ((d - 2 + 1) * w <= (d' - 2) * w) by (apply Z.mul_le_mono_nonneg_r; lia). lia.
Qed.
Lemma rank_inj a : forall b, valid a -> valid b -> length a = length b -> rank a = rank b -> a = b.
Proof.
  induction a as [|d r IH]; intros [|d' r'] V V' L E; cbn in L; try discriminate; [reflexivity|].
  inversion V; inversion V'; subst. destruct (Z.lt_trichotomy d d') as [H|[H|H]].
  - assert (X := rank_head d d' r r' ltac:(assumption) ltac:(assumption) ltac:(lia) H). lia.
  - subst d'. f_equal. apply IH; auto. cbn [rank] in E. injection L as L'. rewrite L' in E. lia.
  - assert (X := rank_head d' d r' r ltac:(assumption) ltac:(assumption) ltac:(lia) H). lia.
Qed.
(* what lies between two vectors with the same beginning begins the same way *)
Lemma rank_between l : forall a b c, valid a -> valid b -> valid c -> length a = length b -> length b = length c ->
  rank a <= rank b <= rank c -> firstn l a = firstn l c -> firstn l b = firstn l a.
Proof.
  induction l as [|l IH]; intros a b c Va Vb Vc L1 L2 R E; [reflexivity|].
  destruct a as [|x a], b as [|y b], c as [|z c]; cbn in L1, L2; try discriminate; [reflexivity|].
  cbn [firstn] in *. injection E as <- E. inversion Va; inversion Vb; inversion Vc; subst.
  destruct (Z.lt_trichotomy x y) as [H|[H|H]].
  - assert (X := rank_head x y c b ltac:(assumption) ltac:(assumption) ltac:(lia) H). lia.
  - subst y. f_equal. apply (IH a b c); auto; try lia. cbn [rank] in R.
    replace (length b) with (length a) in R by lia. replace (length c) with (length a) in R by lia. lia.
  - assert (X := rank_head y x b a ltac:(assumption) ltac:(assumption) ltac:(lia) H). lia.
Qed.

Lemma twos_valid r : valid (map (fun _ : Z => 2) r).
Proof. induction r; constructor; [unfold FACTOR_MAX; lia|assumption]. Qed.
Lemma twos_rank (r : list Z) : rank (map (fun _ : Z => 2) r) = 0.
Proof. induction r; cbn [map rank]; lia. Qed.

Lemma incr_spec ds : valid ds ->
  match incr ds with
  | Some (ds', i) => valid ds' /\ length ds' = length ds /\ rank ds' = rank ds + 1 /\ (i < length ds)%nat /\
      firstn i ds' = firstn i ds /\ nth i ds 0 < nth i ds' 0
  | None => rank ds = 12 ^ Z.of_nat (length ds) - 1
  end.
Proof.
  induction 1 as [|d r Hd Hr IH]; [reflexivity|]. cbn [incr].
  destruct (incr r) as [[r' m]|].
  - destruct IH as (V & L & R & I & F & N). repeat split.
    + constructor; assumption.
    + cbn. lia.
    + cbn [rank]. rewrite L, R. lia.
    + cbn. lia.
    + cbn [firstn]. congruence.
    + cbn [nth]. assumption.
  - cbn [rank length]. rewrite Nat2Z.inj_succ, Z.pow_succ_r by lia. rewrite IH.
    destruct (Z.ltb_spec FACTOR_MAX (d + 1)) as [H|H].
    + unfold FACTOR_MAX in *. replace d with 13 by lia. lia.
    + repeat split.
      * constructor; [lia|apply twos_valid].
      * cbn. rewrite map_length. reflexivity.
      * cbn [rank]. rewrite map_length, twos_rank. lia.
      * lia.
      * cbn. lia.
Qed.

(* ----- the factors in use ----- *)
Lemma prod_app a b : prod (a ++ b) = prod a * prod b.
Proof. induction a as [|x a IH]; cbn [app prod fold_right]; [unfold prod; lia|]. fold (prod (a ++ b)). fold (prod a). rewrite IH. lia. Qed.
Lemma prod_one d : prod [d] = d. Proof. unfold prod. cbn. lia. Qed.
Lemma prod_ge l : valid l -> 2 ^ Z.of_nat (length l) <= prod l.
Proof.
  induction 1 as [|d r Hd Hr IH]; [cbn; lia|]. cbn [length prod fold_right]. fold (prod r).
  rewrite Nat2Z.inj_succ, Z.pow_succ_r by lia. assert (0 < 2 ^ Z.of_nat (length r)) by (apply Z.pow_pos_nonneg; lia).
  apply Z.mul_le_mono_nonneg; lia.
Qed.

(* used up: every proper beginning is too small, the whole is not *)
Definition exact (n k : Z) (p : list Z) : Prop :=
  n <= k * prod p /\ forall q d s, p = q ++ d :: s -> k * prod q < n.
Lemma used_app n p : forall k r, exact n k p -> used n k (p ++ r) = p.
Proof.
  induction p as [|d p IH]; intros k r [H1 H2].
  - cbn [app]. unfold prod in H1; cbn in H1. destruct r; cbn [used]; [reflexivity|]. destruct (Z.ltb_spec k n); [lia|reflexivity].
  - cbn [app used]. assert (K := H2 [] d p eq_refl). unfold prod in K; cbn in K. destruct (Z.ltb_spec k n); [|lia].
    f_equal. apply IH. split.
    + cbn [prod fold_right] in H1. fold (prod p) in H1. lia.
    + intros q e s ->. assert (X := H2 (d :: q) e s eq_refl). cbn [prod fold_right] in X. fold (prod q) in X. lia.
Qed.
Lemma used_exact n ds : forall k, valid ds -> 0 < k -> n <= k * 2 ^ Z.of_nat (length ds) ->
  exists r, ds = used n k ds ++ r /\ exact n k (used n k ds).
Proof.
  induction ds as [|d ds IH]; intros k V Hk Hn.
  - exists []. split; [reflexivity|]. cbn in *. split; [unfold prod; cbn; lia|]. intros [|] ? ? E; discriminate.
  - inversion V; subst. cbn [used]. destruct (Z.ltb_spec k n) as [L|L].
    + cbn [length] in Hn. rewrite Nat2Z.inj_succ, Z.pow_succ_r in Hn by lia.
      assert (P : 0 < 2 ^ Z.of_nat (length ds)) by (apply Z.pow_pos_nonneg; lia).
      destruct (IH (k * d)) as (r & E & X1 & X2); [assumption|apply Z.mul_pos_pos; lia| |].
      { assert (k * 2 * 2 ^ Z.of_nat (length ds) <= k * d * 2 ^ Z.of_nat (length ds)).
        { apply Z.mul_le_mono_nonneg_r; [lia|]. apply Z.mul_le_mono_nonneg_l; lia. } lia. }
      exists r. split; [cbn [app]; congruence|]. split.
      * cbn [prod fold_right]. fold (prod (used n (k * d) ds)). lia.
      * intros [|e q] f s Eq; cbn [app] in Eq; [unfold prod; cbn; lia|]. injection Eq as -> Eq.
        specialize (X2 q f s Eq). cbn [prod fold_right]. fold (prod q). lia.
    + exists (d :: ds). split; [reflexivity|]. split; [unfold prod; cbn; lia|]. intros [|] ? ? E; discriminate.
Qed.

Section Nodes.
  Context (n : Z) (Hn : 2 <= n) (j : nat) (Hj : n <= 2 ^ Z.of_nat j).
  Definition vec (v : list Z) : Prop := valid v /\ length v = j.
  Local Notation U := (used n 1).

  Lemma used_vec v : vec v -> exists r, v = U v ++ r /\ exact n 1 (U v).
  Proof using Hj. clear Hn. intros [V L]. apply used_exact; [assumption|lia|]. rewrite L. lia. Qed.
  Lemma valid_app a b : valid (a ++ b) <-> valid a /\ valid b.
  Proof using. clear Hn Hj. apply Forall_app. Qed.

  (* minimality as tested by the program *)
  Lemma minimal_used v : vec v ->
    (minimal n (U v) <-> (n <=? Z.quot (prod (U v)) (last (U v) 1) * (last (U v) 1 - 1)) = false).
  Proof using Hn Hj.
    intros Hv. destruct (used_vec v Hv) as (r & E & X1 & X2). destruct Hv as [V L].
    set (p := U v) in *. clearbody p.
    assert (Vp : valid p) by (rewrite E in V; apply valid_app in V; apply V).
    destruct (exists_last (l := p)) as (q & d & Ep).
    { intros ->. unfold prod in X1; cbn in X1. lia. }
    rewrite Ep in *. assert (Vd : 2 <= d) by (apply valid_app in Vp; destruct Vp as [_ Vp]; inversion Vp; subst; lia).
    rewrite last_last, prod_app, prod_one, Z.quot_mul by lia. rewrite Z.leb_gt. split.
    - intros (q' & d' & E' & _ & H & _). apply app_inj_tail in E'. destruct E' as [-> ->]. assumption.
    - intros H. exists q, d. split; [reflexivity|]. specialize (X2 q d [] eq_refl). split; [split; lia|]. split; [assumption|].
      apply Forall_forall. assumption.
  Qed.
  Lemma minimal_exact p : minimal n p -> exact n 1 p /\ valid p.
  Proof using.
    clear Hn Hj. intros (q & d & -> & H1 & H2 & H3). assert (V : valid (q ++ [d])) by (apply Forall_forall; assumption).
    split; [|assumption]. split; [lia|]. intros a e s E.
    (* a is a beginning of q *)
    destruct (exists_last (l := e :: s)) as (s' & x & Es); [discriminate|]. rewrite Es, app_assoc in E.
    apply app_inj_tail in E. destruct E as [-> ->]. apply valid_app in V. destruct V as [V _].
    apply valid_app in V. destruct V as [Va Vs]. rewrite prod_app in H1. assert (X := prod_ge _ Vs).
    assert (Y := prod_ge _ Va). assert (0 < 2 ^ Z.of_nat (length s')) by (apply Z.pow_pos_nonneg; lia).
    assert (0 < 2 ^ Z.of_nat (length a)) by (apply Z.pow_pos_nonneg; lia).
    assert (prod a * 1 <= prod a * prod s') by (apply Z.mul_le_mono_nonneg_l; lia). lia.
  Qed.

  (* v was reached from u, touching no digit before m *)
  Definition since (m : nat) (u v : list Z) : Prop :=
    (u = v /\ (j <= m)%nat) \/ ((m < j)%nat /\ firstn m u = firstn m v /\ nth m u 0 < nth m v 0).
  Lemma nth_firstn (a b : list Z) m i : firstn m a = firstn m b -> (i < m)%nat -> nth i a 0 = nth i b 0.
  Proof using.
    clear. intros E H. rewrite <- (firstn_skipn m a), <- (firstn_skipn m b), E.
    destruct (Nat.lt_ge_cases i (length (firstn m b))) as [L|L].
    - rewrite !app_nth1 by assumption. reflexivity.
    - rewrite !app_nth2 by assumption.
      assert (length (firstn m a) = length (firstn m b)) by congruence. rewrite !firstn_length in *.
      rewrite !nth_overflow; [reflexivity|rewrite skipn_length; lia..].
  Qed.
  Lemma firstn_le (a b : list Z) m i : firstn m a = firstn m b -> (i <= m)%nat -> firstn i a = firstn i b.
  Proof using.
    clear. intros E H. replace i with (Nat.min i m) by lia. rewrite <- !firstn_firstn, E. reflexivity.
  Qed.
  Lemma since_step m u v v' i : vec u -> vec v -> since m u v -> (i < length v)%nat -> firstn i v' = firstn i v -> nth i v 0 < nth i v' 0 ->
    since (Nat.min i m) u v'.
  Proof using.
    clear Hn Hj. intros [_ Lu] [_ Lv] S I F N. right. destruct S as [[-> Hm]|(Hm & F0 & N0)].
    - replace (Nat.min i m) with i by lia. split; [lia|]. split; [congruence|assumption].
    - destruct (Nat.lt_trichotomy i m) as [H|[H|H]].
      + replace (Nat.min i m) with i by lia. split; [lia|].
        split; [rewrite F; apply (firstn_le _ _ m); [assumption|lia]|].
        rewrite (nth_firstn u v m i) by assumption. assumption.
      + subst i. replace (Nat.min m m) with m by lia. split; [lia|]. split; [congruence|lia].
      + replace (Nat.min i m) with m by lia. split; [lia|].
        split; [rewrite F0; symmetry; apply (firstn_le _ _ i); [assumption|lia]|].
        rewrite <- (nth_firstn v' v i m) in N0 by assumption. assumption.
  Qed.
  Lemma since_used m u v : vec u -> vec v -> since m u v -> (U v = U u <-> (length (U v) <= m)%nat).
  Proof using Hj.
    clear Hn. intros Hu Hv S.
    destruct (used_vec v Hv) as (r & E & X). destruct (used_vec u Hu) as (r' & E' & X').
    assert (Lv : (length (U v) <= j)%nat).
    { destruct Hv as [_ L]. rewrite <- L. rewrite E at 2. rewrite app_length. lia. }
    destruct S as [[-> Hm]|(Hm & F & N)].
    - split; [lia|reflexivity].
    - split.
      + intros Eq. destruct (Nat.lt_ge_cases m (length (U v))) as [H|H]; [|assumption]. exfalso.
        assert (nth m v 0 = nth m (U v) 0) by (rewrite E at 1; apply app_nth1; assumption).
        assert (nth m u 0 = nth m (U u) 0) by (rewrite E' at 1; apply app_nth1; rewrite <- Eq; assumption).
        rewrite Eq in *. lia.
      + intros H. assert (Fv : firstn (length (U v)) v = U v).
        { rewrite E at 2. rewrite firstn_app, firstn_all, Nat.sub_diag. cbn. apply app_nil_r. }
        rewrite <- (firstn_le u v m) in Fv by assumption.
        symmetry. rewrite <- (firstn_skipn (length (U v)) u), Fv at 1. apply used_app. assumption.
  Qed.

  Definition skipped (u x : list Z) : Prop := ~ minimal n (U x) \/ U x = U u.
  Lemma next_ok fuel : forall m u v, vec u -> vec v -> since m u v ->
    12 ^ Z.of_nat j - rank v <= Z.of_nat fuel ->
    match next_number fuel n m v with
    | Some w => vec w /\ rank v < rank w /\ minimal n (U w) /\ U w <> U u /\
                forall x, vec x -> rank v < rank x < rank w -> skipped u x
    | None => forall x, vec x -> rank v < rank x -> skipped u x
    end.
  Proof using Hn Hj.
    induction fuel as [|fuel IH]; intros m u v Hu Hv S F.
    { assert (R := rank_range v (proj1 Hv)). rewrite (proj2 Hv) in R. lia. }
    cbn [next_number]. assert (I := incr_spec v (proj1 Hv)). destruct (incr v) as [[v' i]|].
    2:{ intros x Hx L. assert (R := rank_range x (proj1 Hx)). rewrite (proj2 Hx) in R. rewrite (proj2 Hv) in I. lia. }
    destruct I as (V' & L' & R' & I & F' & N').
    assert (Hv' : vec v') by (split; [assumption|rewrite L'; apply Hv]).
    assert (S' := since_step m u v v' i Hu Hv S I F' N').
    assert (SU := since_used _ u v' Hu Hv' S'). assert (MU := minimal_used v' Hv').
    cbv zeta. set (m' := Nat.min i m) in *.
    assert (K : forall x, vec x -> rank x = rank v + 1 -> x = v').
    { intros x [Vx Lx] Rx. apply rank_inj; try assumption; try lia. rewrite Lx. symmetry. apply Hv'. }
    destruct ((length (U v') <=? m')%nat || (n <=? Z.quot (prod (U v')) (last (U v') 1) * (last (U v') 1 - 1))) eqn:B.
    - assert (Sk : skipped u v').
      { apply orb_true_iff in B. destruct B as [B|B].
        - right. apply SU. apply Nat.leb_le. assumption.
        - left. rewrite MU, B. discriminate. }
      specialize (IH m' u v' Hu Hv' S' ltac:(lia)). destruct (next_number fuel n m' v') as [w|].
      + destruct IH as (A1 & A2 & A3 & A4 & A5). split; [assumption|]. split; [lia|]. split; [assumption|]. split; [assumption|].
        intros x Hx Rx. destruct (Z.eq_dec (rank x) (rank v + 1)) as [E|E]; [rewrite (K x Hx E); assumption|].
        apply A5; [assumption|lia].
      + intros x Hx Rx. destruct (Z.eq_dec (rank x) (rank v + 1)) as [E|E]; [rewrite (K x Hx E); assumption|].
        apply IH; [assumption|lia].
    - apply orb_false_iff in B. destruct B as [B1 B2]. split; [assumption|]. split; [lia|]. split; [apply MU; assumption|].
      split; [|intros; lia]. intros E. apply SU in E. apply Nat.leb_gt in B1. lia.
  Qed.

  Context (Hs : Z.of_nat (states n) = 12 ^ Z.of_nat j) (Hjn : (j <= Z.to_nat n)%nat).
  Lemma since_start u : since (Z.to_nat n + 1) u u.
  Proof using Hjn. left. split; [reflexivity|]. clear - Hjn. lia. Qed.
  Lemma enum_sound count : forall u, vec u -> minimal n (U u) -> forall p, In p (enum count n u) ->
    minimal n p /\ exists x, vec x /\ rank u <= rank x /\ U x = p.
  Proof using Hn Hj Hs Hjn.
    induction count as [|count IH]; intros u Hu Mu p Hp; [contradiction|]. cbn [enum] in Hp.
    destruct Hp as [<-|Hp]; [split; [assumption|]; exists u; repeat split; try apply Hu; lia|].
    assert (X := next_ok (states n) (Z.to_nat n + 1) u u Hu Hu (since_start u)).
    rewrite Hs in X. assert (R := rank_range u (proj1 Hu)). specialize (X ltac:(lia)).
    destruct (next_number (states n) n (Z.to_nat n + 1) u) as [w|]; [|contradiction].
    destruct X as (A1 & A2 & A3 & _). destruct (IH w A1 A3 p Hp) as (M & x & B1 & B2 & B3).
    split; [assumption|]. exists x. repeat split; try apply B1; try assumption. lia.
  Qed.
  Lemma enum_complete count : forall u, vec u -> 12 ^ Z.of_nat j - rank u <= Z.of_nat count ->
    forall x, vec x -> rank u <= rank x -> minimal n (U x) -> In (U x) (enum count n u).
  Proof using Hn Hj Hs Hjn.
    induction count as [|count IH]; intros u Hu F x Hx L M.
    { assert (R := rank_range u (proj1 Hu)). rewrite (proj2 Hu) in R. lia. }
    cbn [enum]. destruct (list_eq_dec Z.eq_dec (U x) (U u)) as [E|E]; [left; congruence|]. right.
    assert (Lx : rank u < rank x).
    { destruct (Z.eq_dec (rank u) (rank x)) as [Er|]; [|lia]. exfalso. apply E. f_equal.
      destruct Hu, Hx. apply rank_inj; congruence. }
    assert (X := next_ok (states n) (Z.to_nat n + 1) u u Hu Hu (since_start u)).
    rewrite Hs in X. assert (R := rank_range u (proj1 Hu)). specialize (X ltac:(lia)).
    destruct (next_number (states n) n (Z.to_nat n + 1) u) as [w|].
    - destruct X as (A1 & A2 & A3 & A4 & A5). destruct (Z_lt_le_dec (rank x) (rank w)) as [H|H].
      + destruct (A5 x Hx ltac:(lia)); contradiction.
      + apply IH; try assumption. lia.
    - destruct (X x Hx Lx); contradiction.
  Qed.
  (* what lies between two vectors with the same factors has the same factors *)
  Lemma used_between a b c : vec a -> vec b -> vec c -> rank a <= rank b <= rank c -> U a = U c -> U b = U a.
  Proof using Hj.
    clear Hn Hs Hjn. intros Ha Hb Hc R E.
    destruct (used_vec a Ha) as (ra & Ea & Xa). destruct (used_vec c Hc) as (rc & Ec & Xc).
    assert (Fa : firstn (length (U a)) a = U a) by (rewrite Ea at 2; rewrite firstn_app, firstn_all, Nat.sub_diag; cbn; apply app_nil_r).
    assert (Fc : firstn (length (U c)) c = U c) by (rewrite Ec at 2; rewrite firstn_app, firstn_all, Nat.sub_diag; cbn; apply app_nil_r).
    assert (F : firstn (length (U a)) b = firstn (length (U a)) a).
    { destruct Ha, Hb, Hc. apply (rank_between _ a b c); try assumption; try congruence.
    }
    rewrite Fa in F. rewrite <- (firstn_skipn (length (U a)) b), F. apply used_app. assumption.
  Qed.
  Lemma enum_nodup count : forall u, vec u -> minimal n (U u) -> NoDup (enum count n u).
  Proof using Hn Hj Hs Hjn.
    induction count as [|count IH]; intros u Hu Mu; [constructor|]. cbn [enum].
    assert (X := next_ok (states n) (Z.to_nat n + 1) u u Hu Hu (since_start u)).
    rewrite Hs in X. assert (R := rank_range u (proj1 Hu)). specialize (X ltac:(lia)).
    destruct (next_number (states n) n (Z.to_nat n + 1) u) as [w|]; [|constructor; [intros []|constructor]].
    destruct X as (A1 & A2 & A3 & A4 & _). constructor; [|apply IH; assumption].
    intros H. destruct (enum_sound count w A1 A3 _ H) as (_ & x & B1 & B2 & B3). apply A4.
    apply (used_between u w x); try assumption; [lia|congruence].
  Qed.
End Nodes.

(* ----- number of digits, first candidate ----- *)
Lemma log_spec fuel : forall n k, 0 < k -> n - k <= Z.of_nat fuel ->
  n <= k * 2 ^ Z.of_nat (log_aux fuel n k) /\ (forall i, (i < log_aux fuel n k)%nat -> k * 2 ^ Z.of_nat i < n) /\
  (log_aux fuel n k <= fuel)%nat.
Proof.
  induction fuel as [|fuel IH]; intros n k Hk F; cbn [log_aux].
  - cbn. split; [lia|]. split; [intros; lia|lia].
  - destruct (Z.ltb_spec k n) as [L|L].
    + destruct (IH n (k * 2) ltac:(lia) ltac:(lia)) as (A & B & C). split; [|split; [|lia]].
      * rewrite Nat2Z.inj_succ, Z.pow_succ_r by lia. lia.
      * intros [|i] Hi; [cbn; lia|]. rewrite Nat2Z.inj_succ, Z.pow_succ_r by lia. specialize (B i ltac:(lia)). lia.
    + cbn. split; [lia|]. split; [intros; lia|lia].
Qed.
Lemma digits_spec n : 2 <= n -> n <= 2 ^ Z.of_nat (digits n) /\
  (forall i, (i < digits n)%nat -> 2 ^ Z.of_nat i < n) /\ (digits n <= Z.to_nat n)%nat /\ (1 <= digits n)%nat.
Proof.
  intros Hn. destruct (log_spec (Z.to_nat n) n 1 ltac:(lia) ltac:(lia)) as (A & B & C). fold (digits n) in *.
  split; [lia|]. split; [intros i Hi; specialize (B i Hi); lia|]. split; [assumption|].
  destruct (digits n); [cbn in A; lia|lia].
Qed.
Lemma prod_repeat k : prod (repeat 2 k) = 2 ^ Z.of_nat k.
Proof.
  induction k as [|k IH]; [reflexivity|]. rewrite Nat2Z.inj_succ, Z.pow_succ_r by lia. cbn [repeat prod fold_right].
  fold (prod (repeat 2 k)). rewrite IH. reflexivity.
Qed.
Lemma repeat_app a b : repeat 2 (a + b) = repeat 2 a ++ repeat 2 b.
Proof. induction a; cbn; congruence. Qed.
Lemma repeat_prefix k : forall q d s, repeat 2 k = q ++ d :: s -> q = repeat 2 (length q) /\ (length q < k)%nat.
Proof.
  induction k as [|k IH]; intros [|x q] d s E; cbn in E; try discriminate; [split; [reflexivity|cbn; lia]|].
  injection E as <- E. destruct (IH q d s E) as [H1 H2]. cbn. split; [congruence|lia].
Qed.
Lemma twos_exact n : 2 <= n -> exact n 1 (repeat 2 (digits n)).
Proof.
  intros Hn. destruct (digits_spec n Hn) as (A & B & C & D). split; [rewrite prod_repeat; lia|].
  intros q d s E. destruct (repeat_prefix _ _ _ _ E) as [Eq L]. rewrite Eq, prod_repeat. specialize (B _ L). lia.
Qed.
Lemma first_candidate n : 2 <= n -> correct_number n (repeat 2 (Z.to_nat n)) = repeat 2 (digits n).
Proof.
  intros Hn. destruct (digits_spec n Hn) as (A & B & C & D).
  assert (U : used n 1 (repeat 2 (Z.to_nat n)) = repeat 2 (digits n)).
  { replace (Z.to_nat n) with (digits n + (Z.to_nat n - digits n))%nat by lia.
    rewrite repeat_app. apply used_app. apply twos_exact. assumption. }
  unfold correct_number. rewrite U.
  destruct (digits n) as [|j] eqn:E; [lia|].
  assert (T : repeat 2 (S j) = repeat 2 j ++ [2]) by (replace (S j) with (j + 1)%nat by lia; apply repeat_app).
  rewrite T, removelast_last, last_last, prod_app, prod_one, prod_repeat, Z.quot_mul by lia. f_equal. f_equal.
  rewrite Nat2Z.inj_succ, Z.pow_succ_r in A by lia.
  destruct (Z.to_nat n) eqn:En; [lia|]. cbn [last_factor]. destruct (Z.ltb_spec (2 * 2 ^ Z.of_nat j) n); [lia|reflexivity].
Qed.

Lemma first_vec n : vec (digits n) (repeat 2 (digits n)).
Proof. split; [|apply repeat_length]. apply Forall_forall. intros x Hx. apply repeat_spec in Hx. subst. unfold FACTOR_MAX. lia. Qed.
Lemma first_rank k : rank (repeat 2 k) = 0.
Proof. induction k; cbn [repeat rank]; lia. Qed.
Lemma states_eq n : Z.of_nat (states n) = 12 ^ Z.of_nat (digits n).
Proof. unfold states. assert (X := pow_pos (digits n)). lia. Qed.
Lemma first_used n : 2 <= n -> used n 1 (repeat 2 (digits n)) = repeat 2 (digits n).
Proof. intros Hn. rewrite <- (app_nil_r (repeat 2 (digits n))) at 1. apply used_app. apply twos_exact. assumption. Qed.
Lemma first_minimal n : 2 <= n -> minimal n (used n 1 (repeat 2 (digits n))).
Proof.
  intros Hn. rewrite first_used by assumption. destruct (digits_spec n Hn) as (A & B & C & D).
  destruct (digits n) as [|j] eqn:E; [lia|]. exists (repeat 2 j), 2.
  split; [replace (S j) with (j + 1)%nat by lia; apply repeat_app|]. rewrite !prod_repeat. specialize (B j ltac:(lia)).
  split; [lia|]. split; [lia|]. intros x Hx. apply repeat_spec in Hx. subst. unfold FACTOR_MAX. lia.
Qed.

Lemma candidates_exact n p : 2 <= n -> (In p (candidates n) <-> minimal n p).
Proof.
  intros Hn. destruct (digits_spec n Hn) as (A & B & C & D). unfold candidates. rewrite first_candidate by assumption.
  split.
  - intros H. apply (enum_sound n Hn (digits n) A (states_eq n) C (states n) _ (first_vec n) (first_minimal n Hn) p H).
  - intros M. destruct (minimal_exact n p M) as [X V].
    assert (L : (length p <= digits n)%nat).
    { destruct M as (q & d & -> & [M _] & _). apply valid_app in V. destruct V as [V _]. assert (P := prod_ge q V).
      rewrite app_length. cbn. destruct (Nat.lt_ge_cases (length q) (digits n)) as [H|H]; [lia|].
      assert (2 ^ Z.of_nat (digits n) <= 2 ^ Z.of_nat (length q)) by (apply Z.pow_le_mono_r; lia). lia. }
    remember (p ++ repeat 2 (digits n - length p)) as x eqn:Ex.
    assert (U : used n 1 x = p) by (subst x; apply used_app; assumption).
    assert (Hx : vec (digits n) x).
    { subst x. split; [|rewrite app_length, repeat_length; lia]. apply valid_app. split; [assumption|].
      apply Forall_forall. intros y Hy. apply repeat_spec in Hy. subst. unfold FACTOR_MAX. lia. }
    rewrite <- U. apply (enum_complete n Hn (digits n) A (states_eq n) C); auto.
    + apply first_vec.
    + rewrite first_rank, states_eq. lia.
    + rewrite first_rank. apply rank_range. apply Hx.
    + rewrite U. assumption.
Qed.
Lemma candidates_nodup n : 2 <= n -> NoDup (candidates n).
Proof.
  intros Hn. destruct (digits_spec n Hn) as (A & B & C & D). unfold candidates. rewrite first_candidate by assumption.
  apply (enum_nodup n Hn (digits n) A (states_eq n) C); [apply first_vec|apply first_minimal; assumption].
Qed.
Lemma lists_exact ag n f : 2 <= n -> (In f (factor_lists ag n) <->
  exists p l, minimal n p /\ (l <= if ag then 0 else length p)%nat /\ f = map Z.opp (firstn l (rev p)) ++ p).
Proof.
  intros Hn. unfold factor_lists. rewrite in_flat_map. split.
  - intros (p & Hp & Hf). apply in_map_iff in Hf. destruct Hf as (l & <- & Hl). apply in_seq in Hl.
    exists p, l. rewrite <- candidates_exact by assumption. split; [assumption|]. split; [destruct ag; lia|reflexivity].
  - intros (p & l & M & L & ->). exists p. split; [apply candidates_exact; assumption|].
    apply in_map_iff. exists l. split; [reflexivity|]. apply in_seq. destruct ag; lia.
Qed.
Lemma minimal_length n p : 2 <= n -> minimal n p -> (1 <= length p <= digits n)%nat.
Proof.
  intros Hn M. destruct (digits_spec n Hn) as (A & _). destruct (minimal_exact n p M) as [_ V].
  destruct M as (q & d & -> & [M _] & _). apply valid_app in V. destruct V as [V _]. assert (P := prod_ge q V).
  rewrite app_length. cbn. destruct (Nat.lt_ge_cases (length q) (digits n)) as [H|H]; [lia|].
  assert (2 ^ Z.of_nat (digits n) <= 2 ^ Z.of_nat (length q)) by (apply Z.pow_le_mono_r; lia). lia.
Qed.
Lemma lists_fit ag n f : 6 <= n \/ n = 2 \/ n = 4 -> In f (factor_lists ag n) -> Z.of_nat (length f) <= n.
Proof.
  intros Hc Hf. assert (Hn : 2 <= n) by lia. apply lists_exact in Hf; [|assumption]. destruct Hf as (p & l & M & L & ->).
  assert (Lp := minimal_length n p Hn M). destruct (digits_spec n Hn) as (A & B & C & D).
  rewrite app_length, map_length, firstn_length, rev_length.
  assert (2 * Z.of_nat (digits n) <= n); [|destruct ag; lia].
  destruct Hc as [H|[->| ->]]; [|vm_compute; discriminate..].
  destruct (Nat.le_gt_cases (digits n) 3) as [H3|H3]; [lia|].
  assert (X := B (digits n - 1)%nat ltac:(lia)).
  assert (G : forall i, (3 <= i)%nat -> 2 * Z.of_nat i + 2 <= 2 ^ Z.of_nat i).
  { induction 1 as [|i Hi IH]; [cbn; lia|]. rewrite Nat2Z.inj_succ, Z.pow_succ_r by lia. lia. }
  specialize (G (digits n - 1)%nat ltac:(lia)). lia.
Qed.
