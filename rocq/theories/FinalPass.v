(* What the passes make of code of the shape that raw_code.c generates. *)
From Verif Require Import Base RawModel FinalModel.

(* ---------- the shape ---------- *)
Record msg := Msg { mpeer : nat; msize : nat; mplace : nat }.
(* one block: received messages (with the final place), sent messages (with the
   place of the data, and the sizes of the pieces packed), reductions *)
Record exch := Exch { ins : list msg; outs : list (msg * list nat); reds : list instr }.

Section Shape.
  Context (base : nat -> nat).
  Definition sm (x : nat) : loc := (Shm 0, x).
  Fixpoint chain (x s : nat) (ps : list nat) : list instr :=
    match ps with [] => [] | p :: r => Memcpy (sm x) (sm s) p :: chain (x + p) (s + p) r end.
  Fixpoint stage_in (c : nat) (ts : list msg) : list instr :=
    match ts with [] => [] | t :: r => Irecv (sm (base c)) (msize t) (mpeer t) :: stage_in (S c) r end.
  Fixpoint stage_out (c : nat) (us : list (msg * list nat)) : list instr :=
    match us with
    | [] => []
    | (u, ps) :: r => chain (base c) (mplace u) ps ++
                      Barrier :: Isend (sm (base c)) (msize u) (mpeer u) :: stage_out (S c) r
    end.
  Fixpoint unstage (c : nat) (ts : list msg) : list instr :=
    match ts with [] => [] | t :: r => Memcpy (sm (mplace t)) (sm (base c)) (msize t) :: unstage (S c) r end.
  Definition bar (first : bool) : list instr := if first then [] else [Barrier].
  Definition ecode (first : bool) (e : exch) : list instr :=
    bar first ++ stage_in 1 (ins e) ++ stage_out (1 + length (ins e)) (outs e) ++
    Waitall :: Barrier :: unstage 1 (ins e) ++ Barrier :: reds e.
  Fixpoint ecodes (first : bool) (es : list exch) : list instr :=
    match es with [] => [Barrier] | e :: r => ecode first e ++ ecodes false r end.

  Definition is_reduce (i : instr) : Prop := match i with Reduce_ _ _ _ => True | _ => False end.
  (* places of the messages in use *)
  Fixpoint spaced (c : nat) (ts : list msg) : Prop :=
    match ts with [] => True | t :: r => 0 < msize t /\ base c + msize t <= base (S c) /\ spaced (S c) r end.
  Record shape (e : exch) : Prop := {
    sh_outs : forall u ps, In (u, ps) (outs e) -> ps <> [] /\ fold_left Nat.add ps 0 = msize u;
    sh_ins : spaced 1 (ins e);
    sh_low : forall t, In t (ins e) -> mplace t < base 1;
    sh_reds : Forall is_reduce (reds e) }.
  Definition copied_in (i : instr) : Prop :=
    match i with Memcpy (Shm 0, x) (Sendbuf, _) _ => x < base 1 | Barrier => True | _ => False end.
  Definition copied_out (i : instr) : Prop :=
    match i with Memcpy (Recvbuf, _) (Shm 0, _) _ => True | _ => False end.
  Context (mono : forall k, base k <= base (S k)).

  Lemma base_le a b : a <= b -> base a <= base b.
  Proof. induction 1; auto. etransitivity; eauto. Qed.

  (* ---------- optimise_buffers ---------- *)
  Lemma packed_shorter ls : forall d s n i r, packed d s n ls = Some (i, r) -> length r < length ls.
  Proof.
    induction ls as [|x ls IH]; intros d s n i r H; [discriminate|].
    destruct x; try discriminate; cbn in H.
    - destruct ls as [|y ls']; [discriminate|]. destruct y; try discriminate.
      destruct (is_shm _ && _ && _); [|discriminate]. inversion H; subst. cbn. lia.
    - destruct (is_shm _ && _ && _ && _); [|discriminate]. apply IH in H. cbn. lia.
  Qed.
  Lemma opt1_fuel f : forall f' ls, length ls <= f -> length ls <= f' -> optimise1 f ls = optimise1 f' ls.
  Proof.
    induction f as [|f IH]; intros f' ls H H'.
    - destruct ls; [|cbn in H; lia]. destruct f'; reflexivity.
    - destruct ls as [|i r]; [destruct f'; reflexivity|]. destruct f' as [|f']; [cbn in H'; lia|].
      cbn in H, H'. destruct i; cbn [optimise1]; try (rewrite (IH f') by lia; reflexivity).
      destruct (packed d s size r) as [[i r']|] eqn:E.
      + apply packed_shorter in E. rewrite (IH f') by lia. reflexivity.
      + rewrite (IH f') by lia. reflexivity.
  Qed.
  Definition not_copy (i : instr) : Prop := match i with Memcpy _ _ _ => False | _ => True end.
  Lemma ob_cons i r : not_copy i -> optimise_buffers (i :: r) = i :: optimise_buffers r.
  Proof. destruct i; intros H; try reflexivity. destruct H. Qed.
  Lemma ob_keep d s n r : packed d s n r = None -> optimise_buffers (Memcpy d s n :: r) = Memcpy d s n :: optimise_buffers r.
  Proof. intros H. unfold optimise_buffers. cbn [length optimise1]. now rewrite H. Qed.
  Lemma ob_pack d s n r i r' : packed d s n r = Some (i, r') -> optimise_buffers (Memcpy d s n :: r) = i :: optimise_buffers r'.
  Proof.
    intros H. unfold optimise_buffers. cbn [length optimise1]. rewrite H. f_equal. apply opt1_fuel; [|lia].
    apply packed_shorter in H. lia.
  Qed.
  Lemma ob_app l r : Forall not_copy l -> optimise_buffers (l ++ r) = l ++ optimise_buffers r.
  Proof. induction 1 as [|i l Hi Hl IH]; [reflexivity|]. cbn [app]. rewrite ob_cons by assumption. now rewrite IH. Qed.

  Lemma packed_chain ps : forall x s x0 s0 n m q r, x = x0 + n -> s = s0 + n -> m = fold_left Nat.add ps n ->
    packed (sm x0) (sm s0) n (chain x s ps ++ Barrier :: Isend (sm x0) m q :: r) = Some (Isend (sm s0) m q, r).
  Proof.
    induction ps as [|p ps IH]; intros x s x0 s0 n m q r Hx Hs Hm; cbn [chain app packed sm is_shm fst snd andb].
    - cbn in Hm. subst m. rewrite !Nat.eqb_refl. reflexivity.
    - rewrite (proj2 (Nat.eqb_eq (x0 + n) x)), (proj2 (Nat.eqb_eq (s0 + n) s)) by lia. cbn [andb].
      apply IH; [lia|lia|exact Hm].
  Qed.
  Definition direct_out (u : msg * list nat) : instr := Isend (sm (mplace (fst u))) (msize (fst u)) (mpeer (fst u)).
  Lemma opt1_out us : forall c r, (forall u ps, In (u, ps) us -> ps <> [] /\ fold_left Nat.add ps 0 = msize u) ->
    optimise_buffers (stage_out c us ++ r) = map direct_out us ++ optimise_buffers r.
  Proof.
    induction us as [|[u ps] us IH]; intros c r H; [reflexivity|].
    destruct (H u ps (or_introl eq_refl)) as [NE SUM]. destruct ps as [|p ps]; [contradiction|].
    cbn [stage_out chain]. rewrite <- app_assoc. cbn [app].
    rewrite (ob_pack _ _ _ _ _ _ (packed_chain ps (base c + p) (mplace u + p) (base c) (mplace u) p (msize u) (mpeer u) (stage_out (S c) us ++ r) eq_refl eq_refl (eq_sym SUM))).
    cbn [map app]. unfold direct_out at 1. cbn [fst]. f_equal. apply IH. intros u' ps' I. apply H. now right.
  Qed.
  (* behind a barrier that is not followed by a send *)
  Definition no_isend (r : list instr) : Prop := match r with Isend _ _ _ :: _ => False | _ => True end.
  Lemma packed_unstage ts : forall c d s n r, no_isend r -> packed d s n (unstage c ts ++ Barrier :: r) = None.
  Proof.
    induction ts as [|t ts IH]; intros c d s n r H; cbn [unstage app packed].
    - destruct r as [|[]]; auto; destruct H.
    - destruct (is_shm _ && _ && _ && _); auto.
  Qed.
  Lemma opt1_unstage ts : forall c r, no_isend r ->
    optimise_buffers (unstage c ts ++ Barrier :: r) = unstage c ts ++ Barrier :: optimise_buffers r.
  Proof.
    induction ts as [|t ts IH]; intros c r H; cbn [unstage app].
    - apply ob_cons. exact I.
    - rewrite ob_keep by (now apply packed_unstage). now rewrite IH.
  Qed.
  Lemma opt1_post ls : Forall copied_out ls -> optimise_buffers ls = ls.
  Proof.
    induction 1 as [|i l Hi Hl IH]; [reflexivity|]. destruct i as [| | | |d s n|]; try (now destruct Hi).
    rewrite ob_keep; [now rewrite IH|]. destruct Hl as [|j l Hj _]; [reflexivity|].
    destruct j as [| | | |d' s' n'|]; try (now destruct Hj). cbn [packed].
    destruct d' as [[]]; try (now destruct Hj). reflexivity.
  Qed.

  (* the receives and the copies behind them, of which the first k are done away with *)
  Fixpoint recv_k (c k : nat) (ts : list msg) : list instr :=
    match ts, k with
    | [], _ => []
    | t :: r, O => Irecv (sm (base c)) (msize t) (mpeer t) :: recv_k (S c) 0 r
    | t :: r, S k => Irecv (sm (mplace t)) (msize t) (mpeer t) :: recv_k (S c) k r
    end.
  Fixpoint unst_k (c k : nat) (ts : list msg) : list instr :=
    match ts, k with
    | [], _ => []
    | t :: r, O => Memcpy (sm (mplace t)) (sm (base c)) (msize t) :: unst_k (S c) 0 r
    | t :: r, S k => unst_k (S c) k r
    end.
  Definition dcode (k : nat) (first : bool) (e : exch) : list instr :=
    bar first ++ recv_k 1 k (ins e) ++ map direct_out (outs e) ++
    Waitall :: Barrier :: unst_k 1 k (ins e) ++ Barrier :: reds e.
  Fixpoint dcodes (k : nat) (first : bool) (es : list exch) : list instr :=
    match es with [] => [Barrier] | e :: r => dcode k first e ++ dcodes k false r end.
  Lemma recv_0 ts : forall c, recv_k c 0 ts = stage_in c ts.
  Proof. induction ts; intros; cbn; congruence. Qed.
  Lemma unst_0 ts : forall c, unst_k c 0 ts = unstage c ts.
  Proof. induction ts; intros; cbn; congruence. Qed.

  Lemma reds_not_copy l : Forall is_reduce l -> Forall not_copy l.
  Proof. intros H. eapply Forall_impl; [|exact H]. intros []; cbn; auto. Qed.
  Lemma stage_in_not_copy ts : forall c, Forall not_copy (stage_in c ts).
  Proof. induction ts; intros c; cbn; constructor; cbn; auto. Qed.
  Lemma bar_not_copy f : Forall not_copy (bar f).
  Proof. destruct f; repeat constructor. Qed.
  Lemma ecodes_no_isend es post : no_isend (ecodes false es ++ post).
  Proof. destruct es; exact I. Qed.
  Lemma reds_no_isend l r : Forall is_reduce l -> no_isend r -> no_isend (l ++ r).
  Proof. intros H Hr. destruct H as [|i l Hi _]; [exact Hr|]. destruct i; now destruct Hi. Qed.
  Lemma opt1_ecodes es : forall first post, Forall shape es -> Forall copied_out post ->
    optimise_buffers (ecodes first es ++ post) = dcodes 0 first es ++ post.
  Proof.
    induction es as [|e es IH]; intros first post H P.
    - cbn [ecodes dcodes app]. rewrite ob_cons by exact I. now rewrite (opt1_post post P).
    - inversion_clear H as [|? ? He Hes]. cbn [ecodes dcodes].
      unfold ecode, dcode. repeat (rewrite <- ?app_assoc; cbn [app]).
      rewrite (ob_app (bar first)) by apply bar_not_copy. f_equal.
      rewrite (ob_app (stage_in 1 (ins e))) by apply stage_in_not_copy. rewrite recv_0. f_equal.
      rewrite opt1_out by apply (sh_outs e He). f_equal.
      rewrite ob_cons by exact I. f_equal. rewrite ob_cons by exact I. f_equal.
      rewrite opt1_unstage by (apply reds_no_isend; [apply (sh_reds e He)|apply ecodes_no_isend]).
      rewrite unst_0. f_equal. f_equal. rewrite ob_app by apply reds_not_copy, (sh_reds e He).
      f_equal. apply IH; assumption.
  Qed.

  Lemma packed_away d l c m q ps : snd d <> base c -> forall s n x y, packed d s n (chain x y ps ++ Barrier :: Isend (sm (base c)) m q :: l) = None.
  Proof.
    intros D. induction ps as [|p ps IH]; intros s n x y; cbn [chain app packed sm is_shm fst snd andb].
    - rewrite (proj2 (Nat.eqb_neq (snd d) (base c))) by exact D. reflexivity.
    - destruct (_ && _); auto.
  Qed.
  Lemma packed_pre x n y es post : x < base 1 -> Forall shape es -> Forall copied_out post ->
    packed (sm x) (Sendbuf, y) n (ecodes true es ++ post) = None.
  Proof.
    intros B H P. destruct H as [|e es He Hes].
    - cbn. destruct P as [|i l Hi _]; [reflexivity|]. destruct i; try (now destruct Hi). reflexivity.
    - cbn [ecodes]. unfold ecode. cbn [bar app]. destruct (ins e) as [|t ts] eqn:EI; [|reflexivity].
      cbn [stage_in app length Nat.add]. destruct (outs e) as [|[u ps] us] eqn:EO; [reflexivity|].
      cbn [stage_out]. rewrite <- !app_assoc. cbn [app]. apply packed_away. cbn [sm snd]. lia.
  Qed.
  Lemma opt1_program pre es post : Forall copied_in pre -> Forall shape es -> Forall copied_out post ->
    optimise_buffers (pre ++ ecodes true es ++ post) = pre ++ dcodes 0 true es ++ post.
  Proof.
    intros Pre H P. induction Pre as [|i l Hi Hl IH]; cbn [app]; [now apply opt1_ecodes|].
    destruct i as [| | | |d s n|]; try (now destruct Hi); [rewrite ob_cons by exact I; now rewrite IH|].
    rewrite ob_keep; [now rewrite IH|].
    destruct d as [[| |[]] x]; try (now destruct Hi). destruct s as [[] y]; try (now destruct Hi).
    destruct Hl as [|j l Hj Hl]; cbn [app]; [now apply packed_pre|].
    destruct j as [| | | |d' s' n'|]; try (now destruct Hj).
    - destruct Hl as [|k l Hk Hl]; cbn [app packed].
      + destruct H as [|e es He Hes]; [reflexivity|].
        cbn [ecodes]. unfold ecode. cbn [bar app]. destruct (ins e) as [|t ts] eqn:EI; [|reflexivity].
        cbn [stage_in app length Nat.add]. destruct (outs e) as [|[u ps] us] eqn:EO; [reflexivity|].
        destruct (sh_outs e He u ps) as [NE _]; [rewrite EO; now left|]. destruct ps as [|p ps]; [contradiction|]. reflexivity.
      + destruct k; try (now destruct Hk); reflexivity.
    - destruct d' as [[| |[]] x']; try (now destruct Hj). destruct s' as [[] y']; now destruct Hj.
  Qed.

  (* ---------- optimise_buffers2 ---------- *)
  (* copies out of places below [base 1] do not occur, except to the user *)
  Definition high (i : instr) : Prop :=
    match i with Memcpy d s _ => is_shm d && is_shm s = true -> base 1 <= snd s | _ => True end.
  Lemma find_none ls : Forall high ls -> forall x n w u, x < base 1 -> find_copy (sm x) n w u ls = None.
  Proof.
    induction 1 as [|i ls Hi Hls IH]; intros x n w u Hx; [reflexivity|].
    destruct i as [| | | |d s m|]; cbn [find_copy]; try (destruct u; auto; fail); auto.
    destruct u; auto. destruct w; auto. cbn [sm snd].
    destruct (is_shm d && is_shm s) eqn:E.
    - cbn in Hi. specialize (Hi E). rewrite (proj2 (Nat.eqb_neq x (snd s))) by lia. cbn [andb]. auto.
    - rewrite <- andb_assoc, E, andb_false_r. auto.
  Qed.
  Lemma high_recv ts : forall c k, Forall high (recv_k c k ts).
  Proof. induction ts as [|t ts IH]; intros c k; cbn; [constructor|]. destruct k; constructor; cbn; auto. Qed.
  Lemma high_out us : Forall high (map direct_out us).
  Proof. induction us; constructor; cbn; auto. Qed.
  Lemma high_unst ts : forall c k, 1 <= c -> Forall high (unst_k c k ts).
  Proof.
    induction ts as [|t ts IH]; intros c k Hc; cbn; [constructor|]. destruct k; [constructor|]; auto.
    cbn. intros _. now apply base_le.
  Qed.
  Lemma high_reds l : Forall is_reduce l -> Forall high l.
  Proof. intros H. eapply Forall_impl; [|exact H]. intros []; cbn; auto; tauto. Qed.
  Lemma high_post l : Forall copied_out l -> Forall high l.
  Proof.
    intros H. eapply Forall_impl; [|exact H]. intros []; cbn; auto.
    destruct d as [[]]; try tauto. cbn. discriminate.
  Qed.
  Lemma high_bar f : Forall high (bar f).
  Proof. destruct f; repeat constructor. Qed.
  Lemma high_dcode k f e : shape e -> Forall high (dcode k f e).
  Proof.
    intros H. unfold dcode. repeat (apply Forall_app; split); try apply high_bar; try apply high_recv; try apply high_out.
    constructor; [exact I|]. constructor; [exact I|]. apply Forall_app. split; [now apply high_unst|].
    constructor; [exact I|]. apply high_reds, (sh_reds e H).
  Qed.
  Lemma high_dcodes k es : forall f, Forall shape es -> Forall high (dcodes k f es).
  Proof.
    induction es as [|e es IH]; intros f H; cbn; [repeat constructor|]. inversion_clear H.
    apply Forall_app. split; auto. now apply high_dcode.
  Qed.

  Definition no_recv (i : instr) : Prop := match i with Irecv _ _ _ => False | _ => True end.
  Lemma round_keep l r : Forall no_recv l -> round None (l ++ r) = (l ++ fst (round None r), snd (round None r)).
  Proof.
    induction 1 as [|i l Hi Hl IH]; cbn [app]; [now destruct (round None r)|].
    destruct i; try (now destruct Hi); cbn [round]; rewrite IH; reflexivity.
  Qed.
  (* with a replaced receive: nothing else is dropped before the copy *)
  Definition other_recv (old n : nat) (i : instr) : Prop :=
    match i with Irecv (_, x) n' _ => x <> old | Isend _ _ _ | Waitall | Barrier => True | _ => False end.
  Lemma round_ref l r new n old : Forall (other_recv old n) l ->
    round (Some (new, n, old)) (l ++ r) = (l ++ fst (round (Some (new, n, old)) r), snd (round (Some (new, n, old)) r)).
  Proof.
    induction 1 as [|i l Hi Hl IH]; cbn [app]; [now destruct (round _ r)|].
    destruct i; try (now destruct Hi); cbn [round]; rewrite IH; try reflexivity.
    destruct d as [b x]. cbn [other_recv snd] in *. rewrite (proj2 (Nat.eqb_neq x old)) by assumption.
    rewrite andb_false_r. reflexivity.
  Qed.
  Lemma find_skip l : forall d n r, Forall (fun i => match i with Irecv _ _ _ | Isend _ _ _ => True | _ => False end) l ->
    find_copy d n false false (l ++ r) = find_copy d n false false r.
  Proof. induction l as [|i l IH]; intros d n r H; [reflexivity|]. inversion_clear H. destruct i; try (now destruct H0); cbn; auto. Qed.
  Lemma recv_k_msgs ts : forall c k, Forall (fun i => match i with Irecv _ _ _ | Isend _ _ _ => True | _ => False end) (recv_k c k ts).
  Proof. induction ts as [|t ts IH]; intros c k; cbn; [constructor|]. destruct k; constructor; auto. Qed.
  Lemma out_msgs us : Forall (fun i => match i with Irecv _ _ _ | Isend _ _ _ => True | _ => False end) (map direct_out us).
  Proof. induction us; constructor; cbn; auto. Qed.
  Lemma recv_other ts : forall c x n, x < base c -> Forall (other_recv x n) (recv_k c 0 ts).
  Proof.
    induction ts as [|t ts IH]; intros c x n H; cbn; constructor.
    - cbn. lia.
    - apply IH. pose proof (mono c). lia.
  Qed.
  Lemma out_other us x n : Forall (other_recv x n) (map direct_out us).
  Proof. induction us; constructor; cbn; auto. Qed.
  Lemma unst_no_recv ts : forall c k, Forall no_recv (unst_k c k ts).
  Proof. induction ts as [|t ts IH]; intros c k; cbn; [constructor|]. destruct k; [constructor|]; cbn; auto. Qed.
  Lemma reds_no_recv l : Forall is_reduce l -> Forall no_recv l.
  Proof. intros H. eapply Forall_impl; [|exact H]. intros []; cbn; auto. Qed.
  Lemma out_no_recv us : Forall no_recv (map direct_out us).
  Proof. induction us; constructor; cbn; auto. Qed.

  (* one round in one block *)
  Lemma round_block ts : forall c k us rd tail, 1 <= c -> spaced c ts -> (forall t, In t ts -> mplace t < base 1) ->
    Forall is_reduce rd -> Forall high tail ->
    round None (recv_k c k ts ++ map direct_out us ++ Waitall :: Barrier :: unst_k c k ts ++ Barrier :: rd ++ tail) =
    (recv_k c (S k) ts ++ map direct_out us ++ Waitall :: Barrier :: unst_k c (S k) ts ++ Barrier :: rd ++ fst (round None tail),
     (k <? length ts) || snd (round None tail)).
  Proof.
    intros c k us rd tail. revert us rd tail. revert c k.
    assert (PLAIN : forall us un rd tail, Forall no_recv un -> Forall is_reduce rd ->
      round None (map direct_out us ++ Waitall :: Barrier :: un ++ Barrier :: rd ++ tail) =
      (map direct_out us ++ Waitall :: Barrier :: un ++ Barrier :: rd ++ fst (round None tail), snd (round None tail))).
    { intros us un rd tail Hun Hrd.
      replace (map direct_out us ++ Waitall :: Barrier :: un ++ Barrier :: rd ++ tail)
        with ((map direct_out us ++ Waitall :: Barrier :: un ++ Barrier :: rd) ++ tail)
        by (repeat (rewrite <- ?app_assoc; cbn [app]); reflexivity).
      rewrite round_keep; [|apply Forall_app; split; [apply out_no_recv|]; repeat constructor; apply Forall_app; split; auto; repeat constructor; now apply reds_no_recv].
      repeat (rewrite <- ?app_assoc; cbn [app]). reflexivity. }
    (* the direct receives come first; [us], [un] are what follows *)
    assert (FIRST : forall ts c k us un rd tail, 1 <= c -> spaced c ts -> (forall t, In t ts -> mplace t < base 1) ->
      Forall is_reduce rd -> Forall high tail -> Forall high un -> un = unst_k c k ts ->
      round None (recv_k c k ts ++ map direct_out us ++ Waitall :: Barrier :: un ++ Barrier :: rd ++ tail) =
      (recv_k c (S k) ts ++ map direct_out us ++ Waitall :: Barrier :: unst_k c (S k) ts ++ Barrier :: rd ++ fst (round None tail),
       (k <? length ts) || snd (round None tail))).
    { clear ts. induction ts as [|t ts IH]; intros c k us un rd tail Hc SP LOW RD HT HU EU.
      - cbn [recv_k unst_k app length Nat.ltb Nat.leb orb] in *. subst un. apply PLAIN; [constructor|assumption].
      - destruct SP as (SZ & SP1 & SP2). destruct k as [|k].
        + cbn [recv_k app]. cbn [round].
          rewrite (find_skip (recv_k (S c) 0 ts)) by apply recv_k_msgs. rewrite find_skip by apply out_msgs.
          subst un. cbn [unst_k app find_copy sm snd is_shm fst andb].
          rewrite !Nat.eqb_refl. cbn [andb fst snd sm app].
          change (0 <? length (t :: ts)) with true. cbn [orb]. f_equal. cbn [recv_k]. f_equal.
          rewrite recv_0. rewrite <- recv_0.
          rewrite (round_ref (recv_k (S c) 0 ts)) by (apply recv_other; pose proof (mono c); lia). cbn [fst]. f_equal.
          rewrite (round_ref (map direct_out us)) by apply out_other. cbn [fst]. f_equal.
          cbn [round]. cbn [sm fst snd buffer_eqb]. rewrite !Nat.eqb_refl. cbn [andb].
          match goal with |- context [round None ?l] =>
            replace l with ((unst_k (S c) 0 ts ++ Barrier :: rd) ++ tail) by (rewrite <- app_assoc; reflexivity) end.
          rewrite round_keep by (apply Forall_app; split; [apply unst_no_recv|constructor; [exact I|now apply reds_no_recv]]).
          cbn [fst]. rewrite <- app_assoc. reflexivity.
        + cbn [recv_k app]. cbn [round].
          rewrite find_none; [| |apply LOW; now left].
          2:{ apply Forall_app. split; [apply high_recv|]. apply Forall_app. split; [apply high_out|].
              repeat constructor. apply Forall_app. split; [exact HU|]. constructor; [exact I|]. apply Forall_app. split; auto. now apply high_reds. }
          rewrite (IH (S c) k us un rd tail); auto.
          intros t' I'. apply LOW. now right. }
    intros c k us rd tail Hc SP LOW RD HT. apply FIRST; auto. now apply high_unst.
  Qed.
  Lemma round_bar f r : round None (bar f ++ r) = (bar f ++ fst (round None r), snd (round None r)).
  Proof. apply round_keep. destruct f; repeat constructor. Qed.
  Lemma round_dcodes k es : forall f post, Forall shape es -> Forall copied_out post ->
    round None (dcodes k f es ++ post) = (dcodes (S k) f es ++ post, existsb (fun e => k <? length (ins e)) es).
  Proof.
    induction es as [|e es IH]; intros f post H P.
    - cbn [dcodes app existsb]. change (Barrier :: post) with ([Barrier] ++ post).
      rewrite <- (app_nil_r post) at 1. rewrite app_assoc, round_keep.
      + cbn [round fst snd app]. now rewrite app_nil_r.
      + constructor; [exact I|]. eapply Forall_impl; [|exact P]. intros []; cbn; auto.
    - inversion_clear H as [|? ? He Hes]. cbn [dcodes existsb]. unfold dcode.
      repeat (rewrite <- ?app_assoc; cbn [app]). rewrite round_bar.
      rewrite (round_block (ins e) 1 k (outs e) (reds e) _ (le_n 1) (sh_ins e He) (sh_low e He) (sh_reds e He)) by
        (apply Forall_app; split; [now apply high_dcodes|now apply high_post]).
      cbn [fst snd]. rewrite IH by assumption. cbn [fst snd]. reflexivity.
  Qed.
  Lemma recv_inf ts : forall c k, length ts <= k -> recv_k c k ts = map (fun t => Irecv (sm (mplace t)) (msize t) (mpeer t)) ts.
  Proof. induction ts as [|t ts IH]; intros c k H; cbn; auto. destruct k; [cbn in H; lia|]. rewrite IH; auto. cbn in H. lia. Qed.
  Lemma unst_inf ts : forall c k, length ts <= k -> unst_k c k ts = [].
  Proof. induction ts as [|t ts IH]; intros c k H; cbn; auto. destruct k; [cbn in H; lia|]. rewrite IH; auto. cbn in H. lia. Qed.
  Definition direct_in (t : msg) : instr := Irecv (sm (mplace t)) (msize t) (mpeer t).
  Definition direct (first : bool) (e : exch) : list instr :=
    bar first ++ map direct_in (ins e) ++ map direct_out (outs e) ++ Waitall :: Barrier :: Barrier :: reds e.
  Fixpoint directs (first : bool) (es : list exch) : list instr :=
    match es with [] => [Barrier] | e :: r => direct first e ++ directs false r end.
  Lemma dcodes_inf k es : forall f, Forall (fun e => length (ins e) <= k) es -> dcodes k f es = directs f es.
  Proof.
    induction es as [|e es IH]; intros f H; [reflexivity|]. inversion_clear H. cbn [dcodes directs]. rewrite IH by assumption.
    unfold dcode, direct. rewrite recv_inf, unst_inf by assumption. reflexivity.
  Qed.
  Lemma rounds_dcodes pre post es : Forall no_recv pre -> Forall shape es -> Forall copied_out post ->
    forall f k, Forall (fun e => length (ins e) < f + k) es -> 0 < f -> rounds f (pre ++ dcodes k true es ++ post) = pre ++ directs true es ++ post.
  Proof.
    intros Pre H P. induction f as [|f IH]; intros k L F; [lia|]. cbn [rounds].
    rewrite round_keep by exact Pre. rewrite round_dcodes by assumption. cbn [fst snd].
    destruct (existsb (fun e => k <? length (ins e)) es) eqn:E.
    - apply IH.
      + eapply Forall_impl; [|exact L]. intros e He. cbn in He. lia.
      + destruct f; [|lia]. exfalso. apply existsb_exists in E. destruct E as (e & I & E). apply Nat.ltb_lt in E.
        rewrite Forall_forall in L. specialize (L e I). lia.
    - rewrite dcodes_inf; [reflexivity|]. apply Forall_forall. intros e I.
      destruct (k <? length (ins e)) eqn:X; [|apply Nat.ltb_ge in X; lia].
      assert (existsb (fun e => k <? length (ins e)) es = true) by (apply existsb_exists; eauto). congruence.
  Qed.
  Lemma recv_len ts : forall c k, length (recv_k c k ts) = length ts.
  Proof. induction ts as [|t ts IH]; intros c k; cbn; auto. destruct k; cbn; now rewrite IH. Qed.
  Lemma dcodes_long k es : forall f, Forall (fun e => length (ins e) <= length (dcodes k f es)) es.
  Proof.
    induction es as [|e es IH]; intros f; constructor.
    - cbn [dcodes]. unfold dcode. rewrite !app_length, recv_len. lia.
    - eapply Forall_impl; [|apply (IH false)]. intros e' H. cbn beta in *. cbn [dcodes]. rewrite app_length. lia.
  Qed.
  Lemma optimise_program pre es post : Forall copied_in pre -> Forall shape es -> Forall copied_out post ->
    optimise_buffers2 (optimise_buffers (pre ++ ecodes true es ++ post)) = pre ++ directs true es ++ post.
  Proof.
    intros Pre H P. rewrite opt1_program by assumption. unfold optimise_buffers2. apply rounds_dcodes; auto; [| |lia].
    - eapply Forall_impl; [|exact Pre]. intros []; cbn; auto.
    - eapply Forall_impl; [|apply (dcodes_long 0 es true)]. intros e L. cbn beta in *. rewrite !app_length. lia.
  Qed.
End Shape.
