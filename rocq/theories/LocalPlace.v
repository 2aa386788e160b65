(* Putting a program at its place in a shared segment; the broadcast on one node. *)
From Verif Require Import Base BarrierModel NodeModel SyncProofs SyncItems SyncConcat NodeCode NodeZero SingleModel SyncBank SingleSpec SingleProofs LocalModel SyncRounds LocalSync.
Local Ltac Zify.zify_post_hook ::= idtac.
Local Open Scope nat_scope.

Section Place.
  Context (b : nat) (l : bool) (snd_ : Z).
  Hypothesis b_2 : b < 2.
  Notation pl := (place b l snd_).
  Definition pla (a : act) : act :=
    (fst (fst a), shm_cell b l (snd (fst a)),
     match snd a with Shm x => Shm (shm_cell b l x) | Snd x => Snd (snd_ + x) end).

  Lemma place_ok n own p : forall q, okb n own q p -> okb n own q (map pl p).
  Proof. induction p as [|[e|e|k d s] p IH]; simpl; intros q; auto; intuition. Qed.
  Lemma place_nW p : nW (map pl p) = nW p.
  Proof. unfold nW. induction p as [|[e|e|k d s] p IH]; simpl; auto. Qed.
  Lemma place_waits p : waits (map pl p) = waits p.
  Proof. induction p as [|[e|e|k d s] p IH]; simpl; auto. now rewrite IH. Qed.
  Lemma place_segm p : forall j, segm (map pl p) j = map pla (segm p j).
  Proof. induction p as [|[e|e|k d s] p IH]; simpl; intros [|j]; auto. now rewrite IH. Qed.

  Context (n : nat) (prog : nat -> list micro).
  Notation placed := (fun c => map pl (prog c)).
  Lemma place_knows d j c m : knows prog d j c m -> knows placed d j c m.
  Proof. apply knows_ext. intros x. now rewrite place_waits. Qed.

  Lemma cell_eq a a' : shm_cell b l a = shm_cell b l a' -> a = a'.
  Proof. intros E. apply shm_cell_inj in E; tauto. Qed.

  Lemma place_race : race_free n prog -> race_free n placed.
  Proof.
    intros RF c d j k k1 d1 s1 k2 d2 s2 Hc Hd Ne I1 I2 C. rewrite place_segm in I1, I2.
    apply in_map_iff in I1, I2. destruct I1 as ([[k1' d1'] s1'] & E1 & I1), I2 as ([[k2' d2'] s2'] & E2 & I2).
    unfold pla in E1, E2. simpl in E1, E2. injection E1 as -> <- <-. injection E2 as -> <- <-.
    destruct (RF c d j k k1 d1' s1' k2 d2' s2' Hc Hd Ne I1 I2) as [K|K]; [|left; now apply place_knows|right; now apply place_knows].
    destruct C as [E|[E|E]].
    - left. now apply cell_eq.
    - right. left. destruct s2' as [x|x]; [|discriminate]. injection E as E. apply cell_eq in E. now subst.
    - right. right. destruct s1' as [x|x]; [|discriminate]. injection E as E. apply cell_eq in E. now subst.
  Qed.

  Context {V : Type} (op : V -> V -> V) (send : nat -> Z -> V).
  Notation send' := (fun c a => send c (snd_ + a)%Z).
  Notation view m := (fun a => m (shm_cell b l a)).

  Lemma place_segment c acts : forall m m' : Z -> V, (forall a, m (shm_cell b l a) = m' a) -> forall a,
    segment op send c (map pla acts) m (shm_cell b l a) = segment op send' c acts m' a.
  Proof.
    induction acts as [|[[k d] s] acts IH]; intros m m' E a; [apply E|].
    unfold segment in *. cbn [map fold_left]. apply IH. intros x. unfold effect, pla, upd. cbn [fst snd].
    destruct (Z.eq_dec x d) as [->|Ne].
    - destruct (Z.eq_dec (shm_cell b l d) (shm_cell b l d)); [|congruence]. destruct k, s; rewrite ?E; auto.
    - destruct (Z.eq_dec (shm_cell b l x) (shm_cell b l d)) as [Q|_]; [apply cell_eq in Q; congruence|apply E].
  Qed.

  Lemma place_lock K m a : lock n placed K op send m (shm_cell b l a) = lock n prog K op send' (view m) a.
  Proof.
    unfold lock. assert (G : forall js m m', (forall a, m (shm_cell b l a) = m' a) -> forall a,
      fold_left (fun m j => phase n placed op send j m) js m (shm_cell b l a) =
      fold_left (fun m j => phase n prog op send' j m) js m' a).
    { induction js as [|j js IH]; intros m1 m2 E x; [apply E|]. cbn [fold_left]. apply IH. clear x IH.
      unfold phase. generalize (seq 0 n). intros cs. revert m1 m2 E. induction cs as [|c cs IH]; intros m1 m2 E x; [apply E|].
      cbn [fold_left]. apply IH. intros y. rewrite place_segm. now apply place_segment. }
    apply G. reflexivity.
  Qed.

  Lemma place_acts p k d s : In (MAct k d s) (map pl p) -> exists a s', d = shm_cell b l a /\ In (MAct k a s') p /\
    s = match s' with Shm x => Shm (shm_cell b l x) | Snd x => Snd (snd_ + x) end.
  Proof.
    intros I. apply in_map_iff in I. destruct I as ([e|e|k' a s'] & E & I); try discriminate.
    injection E as -> <- <-. exists a, s'. auto.
  Qed.
End Place.

(* ---- the broadcast ---- *)
Section Bcast.
  Context (n r : nat) (z : Z).
  Hypothesis Hr : r < n.
  Definition mv (c : nat) : list micro := if c =? r then micro_code [Move Copy 0 (Snd 0) z] else [].
  Definition bc (c : nat) : list micro := mv c ++ full_bar n c.
  Let n_pos : 0 < n. Proof. lia. Qed.

  Lemma in_mv c k d s : In (MAct k d s) (mv c) -> c = r /\ k = Copy /\ (0 <= d < z)%Z /\ s = Snd d.
  Proof.
    unfold mv. destruct (Nat.eqb_spec c r); [|intros []]. intros I.
    rewrite (micro_moves [Move Copy 0 (Snd 0) z]) in I by (repeat constructor).
    apply in_map_iff in I. destruct I as ([[k' d'] s'] & E & I). unfold macts in I. cbn [flat_map] in I. rewrite app_nil_r in I.
    apply in_move in I. destruct I as (x & Hx & Ex). injection Ex as -> -> ->. injection E as <- <- <-. auto.
  Qed.
  Lemma mv_moves c : nW (mv c) = 0 /\ waits (mv c) = [] /\ okb n c false (mv c).
  Proof.
    unfold mv. destruct (c =? r); [|repeat split; reflexivity].
    rewrite (micro_moves [Move Copy 0 (Snd 0) z]) by (repeat constructor).
    induction (macts [Move Copy 0 (Snd 0) z]) as [|[[k d] s] l (I1 & I2 & I3)]; [repeat split; reflexivity|].
    simpl in *. auto.
  Qed.
  Lemma bc_ok c : c < n -> okb n c false (bc c).
  Proof. intros Hc. apply okb_app; [apply mv_moves|now apply full_bar_ok]. Qed.
  Lemma bc_K c : c < n -> nW (bc c) = clg n.
  Proof. intros Hc. unfold bc. rewrite nW_app, (proj1 (mv_moves c)), full_bar_K by auto. reflexivity. Qed.
  Lemma bc_acts c k d s : In (MAct k d s) (bc c) -> c = r /\ k = Copy /\ (0 <= d < z)%Z /\ s = Snd d.
  Proof. intros I. apply in_app_or in I. destruct I as [I|I]; [now apply in_mv|destruct (full_bar_acts n c k d s I)]. Qed.
  Lemma bc_segm c j a : In a (segm (bc c) j) -> j = 0.
  Proof.
    intros I. apply in_segm_app in I. rewrite (proj1 (mv_moves c)) in I. destruct I as [I|(_ & I)].
    - destruct j; auto. rewrite segm_beyond in I; [destruct I|]. rewrite (proj1 (mv_moves c)). lia.
    - rewrite segm_none in I; [destruct I|]. intros. apply full_bar_acts.
  Qed.
  Lemma bc_race : race_free n bc.
  Proof.
    intros c d j k k1 d1 s1 k2 d2 s2 Hc Hd Ne I1 I2 _.
    apply in_segm_micro, bc_acts in I1. apply in_segm_micro, bc_acts in I2. destruct I1 as (-> & _), I2 as (-> & _). congruence.
  Qed.
  Lemma bc_knows c d : c < n -> d < n -> c <> d -> knows bc d (clg n) c 0.
  Proof.
    intros Hc Hd Ne. apply knows_ext with (A := full_bar n); [|now apply full_bar_knows].
    intros x. unfold bc. now rewrite waits_app, (proj1 (proj2 (mv_moves x))).
  Qed.
  Lemma bc_lock {V} (op : V -> V -> V) send m y : (0 <= y < z)%Z -> lock n bc (clg n) op send m y = send r y.
  Proof.
    intros Hy. change (clg n) with (0 + clg n).
    unfold bc. rewrite (lock_app n op send mv (full_bar n) 0 (clg n) m (fun c _ => proj1 (mv_moves c)) (race_calm n _ bc_race) y).
    rewrite lock_other by (intros; apply full_bar_acts).
    unfold lock. simpl. unfold phase. fold (phases op send (fun c => segm (mv c) 0) (seq 0 n) m).
    rewrite (phases_own n op send _ m r y Hr).
    - unfold mv. rewrite Nat.eqb_refl. rewrite (micro_moves [Move Copy 0 (Snd 0) z]) by (repeat constructor).
      unfold macts. cbn [flat_map]. rewrite app_nil_r.
      replace (segm _ 0) with (move_acts (Move Copy 0 (Snd 0) z)).
      + change y with (0 + y)%Z at 1. rewrite seg_move; auto. intros a E. discriminate.
      + induction (move_acts (Move Copy 0 (Snd 0) z)) as [|[[k d] s] l IH]; simpl; auto. now rewrite <- IH.
    - intros d [[k1 d1] s1] [[k2 d2] s2] Hd Ne I1 I2. apply in_segm_micro, in_mv in I2. destruct I2. congruence.
    - intros d [[k1 d1] s1] Hd Ne I. apply in_segm_micro, in_mv in I. destruct I. congruence.
  Qed.
End Bcast.
