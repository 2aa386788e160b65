(* The cores of a node together do what a single core would do: simulation of
   the cluster (MultiModel.v) by the system of RawModel.v. *)
From Verif Require Import Base SchedModel RawModel RawSpec RawRepeat MultiModel.
Local Ltac Zify.zify_post_hook ::= idtac.

(* ---------- programs ---------- *)
(* a request, to be posted by core [own] of the node; the other side is the same core of node [other] *)
Record post := Post { is_recv : bool; own : nat; spot : loc; size : nat; other : nat }.
(* what lies between two barriers: requests, work of core 0, and maybe a Waitall of every core *)
Record segment := Seg { posts : list post; locals : list instr; wait : bool }.

Definition sends_in (l : list post) := filter (fun x => negb (is_recv x)) l.
Definition recvs_in (l : list post) := filter is_recv l.
Definition of_core (r : nat) (l : list post) := filter (fun x => own x =? r) l.
Definition tags (q : nat) (l : list post) := map own (filter (fun x => other x =? q) l).
Definition waits (w : bool) : list instr := if w then [Waitall] else [].

Definition post_instr (x : post) : instr :=
  if is_recv x then Irecv (spot x) (size x) (other x) else Isend (spot x) (size x) (other x).
Definition seg_code (s : segment) : list instr := map post_instr (posts s) ++ locals s ++ waits (wait s).
Fixpoint later_code (l : list segment) : list instr :=
  match l with [] => [] | s :: r => Barrier :: seg_code s ++ later_code r end.

Section Core.
  Context (c : nat).
  Definition rank_to (x : post) : nat := other x * c + own x.
  Definition post_core (x : post) : instr :=
    if is_recv x then Irecv (spot x) (size x) (rank_to x) else Isend (spot x) (size x) (rank_to x).
  Definition seg_core (r : nat) (s : segment) : list instr :=
    map post_core (of_core r (posts s)) ++ (if r =? 0 then locals s else []) ++ waits (wait s).
  Fixpoint later_core (r : nat) (l : list segment) : list instr :=
    match l with [] => [] | s :: k => Barrier :: seg_core r s ++ later_core r k end.
End Core.

(* up to the next Waitall *)
Fixpoint upto (l : list segment) : list post :=
  match l with [] => [] | s :: r => posts s ++ (if wait s then [] else upto r) end.
Definition all_posts (l : list segment) : list post := flat_map posts l.

Definition is_local (i : instr) : Prop := match i with Memcpy _ _ _ | Reduce_ _ _ _ => True | _ => False end.
Section Good.
  Context (N c : nat).
  Definition post_ok (x : post) : Prop := own x < c /\ other x < N.
  Fixpoint good (l : list segment) : Prop :=
    match l with
    | [] => True
    | s :: r => NoDup (map other (sends_in (upto l))) /\ NoDup (map other (recvs_in (upto l))) /\
                Forall is_local (locals s) /\ Forall post_ok (posts s) /\
                (r = [] -> locals s = [] /\ wait s = false) /\ good r
    end.
End Good.

(* ---------- lists ---------- *)
Lemma filter_split {A} (f : A -> bool) x : forall l l1 l2, filter f l = l1 ++ x :: l2 ->
  exists a b, l = a ++ x :: b /\ filter f a = l1 /\ filter f b = l2.
Proof.
  induction l as [|y l IH]; intros l1 l2 E; [destruct l1; discriminate|]. cbn [filter] in E. destruct (f y) eqn:F.
  - destruct l1 as [|z l1]; cbn in E; injection E as E1 E2.
    + subst. exists [], l. auto.
    + subst. destruct (IH l1 l2 E2) as (a & b & -> & Fa & Fb). exists (z :: a), b. repeat split; auto. cbn [filter]. rewrite F. now f_equal.
  - destruct (IH l1 l2 E) as (a & b & -> & Fa & Fb). exists (y :: a), b. repeat split; auto. cbn [filter]. now rewrite F.
Qed.
Lemma sends_app l k : sends_in (l ++ k) = sends_in l ++ sends_in k.
Proof. apply filter_app. Qed.
Lemma recvs_app l k : recvs_in (l ++ k) = recvs_in l ++ recvs_in k.
Proof. apply filter_app. Qed.
Lemma of_core_app r l k : of_core r (l ++ k) = of_core r l ++ of_core r k.
Proof. apply filter_app. Qed.
Lemma tags_app q l k : tags q (l ++ k) = tags q l ++ tags q k.
Proof. unfold tags. now rewrite filter_app, map_app. Qed.
Lemma filter_swap {A} (f g : A -> bool) l : filter f (filter g l) = filter g (filter f l).
Proof. induction l as [|x l IH]; cbn; auto. destruct (f x) eqn:F, (g x) eqn:G; cbn; rewrite ?F, ?G; now rewrite IH. Qed.
Lemma tags_gone q (l : list post) : ~ In q (map other l) -> tags q l = [].
Proof.
  intros D. unfold tags. induction l as [|x l IH]; [reflexivity|]. cbn [filter]. destruct (Nat.eqb_spec (other x) q) as [E|E].
  - exfalso. apply D. now left.
  - apply IH. intros I. apply D. now right.
Qed.
Lemma rank_inj c p r p' r' : r < c -> r' < c -> p * c + r = p' * c + r' -> p = p' /\ r = r'.
Proof.
  intros H H' E. assert (A := f_equal (fun x => x / c) E). cbn beta in A.
  rewrite !Nat.div_add_l, !Nat.div_small, !Nat.add_0_r in A by lia. subst. split; lia.
Qed.
Lemma rank_div c p r : r < c -> (p * c + r) / c = p.
Proof. intros H. rewrite Nat.div_add_l, Nat.div_small by lia. lia. Qed.
Lemma rank_lt c N p r : p < N -> r < c -> p * c + r < N * c.
Proof. intros. assert (S p * c <= N * c) by (apply Nat.mul_le_mono_r; lia). lia. Qed.
Lemma rank_split c N k : 0 < c -> k < N * c -> exists p r, p < N /\ r < c /\ k = p * c + r.
Proof.
  intros Hc Hk. exists (k / c), (k mod c). split; [|split].
  - apply Nat.div_lt_upper_bound; lia.
  - apply Nat.mod_upper_bound. lia.
  - rewrite (Nat.mul_comm (k / c)). apply Nat.div_mod. lia.
Qed.

Section Sim.
  Context {V : Type} (op : V -> V -> V) (N c : nat) (Hc : 0 < c).
  Notation reach := (reach op N).
  Notation step := (step op N).

  Definition node_req (x : post) : request := Request (other x) (spot x) (size x).
  Definition core_req (x : post) : request := Request (rank_to c x) (spot x) (size x).

  (* a node: requests posted in the system but not finished, rest of the work
     of core 0 and of the code *)
  Record nghost := NG { gS : list post; gR : list post; gL : list instr; gW : bool; gK : list segment }.
  (* a core: requests it has still to post, whether it has passed its Waitall, requests that are not finished *)
  Record cghost := CG { hP : list post; hD : bool; hS : list post; hR : list post }.

  Definition node_ok (n : nghost) (x : process) (m : @memory V) : Prop :=
    code x = gL n ++ waits (gW n) ++ later_code (gK n) /\ mem x = m /\
    sending x = map node_req (gS n) /\ receiving x = map node_req (gR n) /\
    NoDup (map other (gS n ++ if gW n then [] else sends_in (upto (gK n)))) /\
    NoDup (map other (gR n ++ if gW n then [] else recvs_in (upto (gK n)))) /\
    Forall is_local (gL n) /\ good N c (gK n) /\ (gK n = [] -> gL n = [] /\ gW n = false) /\
    Forall (post_ok N c) (gS n) /\ Forall (post_ok N c) (gR n).
  Definition core_ok (r : nat) (n : nghost) (h : cghost) (k : core) : Prop :=
    ccode k = (if hD h then [] else map (post_core c) (hP h) ++ (if r =? 0 then gL n else []) ++ waits (gW n)) ++ later_core c r (gK n) /\
    csending k = map core_req (hS h) /\ creceiving k = map core_req (hR h) /\
    of_core r (gS n) = hS h ++ sends_in (hP h) /\ of_core r (gR n) = hR h ++ recvs_in (hP h) /\
    (hD h = true -> hP h = [] /\ hS h = [] /\ hR h = [] /\ (r = 0 -> gL n = [])).
  Definition pair_ok (p q : nat) (n n' : nghost) (ch : list (nat * list V)) : Prop :=
    map fst ch ++ tags q (gS n) ++ tags q (sends_in (all_posts (gK n))) =
    tags p (gR n') ++ tags p (recvs_in (all_posts (gK n'))).
  Definition link (r r' : nat) (ch : list (nat * list V)) : list (list V) :=
    if r =? r' then map snd (filter (fun x => fst x =? r) ch) else [].

  Definition related (s : @cluster V) (a : @system V) : Prop :=
    exists (G : nat -> nghost) (H : nat -> nat -> cghost) (C : nat -> nat -> list (nat * list V)),
    (forall p, p < N -> node_ok (G p) (procs a p) (nmem s p)) /\
    (forall p r, p < N -> r < c -> core_ok r (G p) (H p r) (cores s (p * c + r))) /\
    (forall p q, p < N -> q < N -> chan a p q = map snd (C p q) /\ pair_ok p q (G p) (G q) (C p q)) /\
    (forall p q r r', p < N -> q < N -> r < c -> r' < c -> cchan s (p * c + r) (q * c + r') = link r r' (C p q)).

  (* ---------- single steps of the system ---------- *)
  Lemma post_step l : forall a p k, p < N -> code (procs a p) = map post_instr l ++ k ->
    exists a', reach a a' /\ chan a' = chan a /\ (forall q, q <> p -> procs a' q = procs a q) /\
      procs a' p = Process k (mem (procs a p)) (sending (procs a p) ++ map node_req (sends_in l)) (receiving (procs a p) ++ map node_req (recvs_in l)).
  Proof.
    induction l as [|x l IH]; intros a p k Hp E.
    - exists a. split; [constructor|]. repeat split; auto. cbn in *. rewrite !app_nil_r. destruct (procs a p); cbn in *. now subst.
    - cbn [map app] in E. unfold post_instr at 1 in E.
      set (y := if is_recv x then Process (map post_instr l ++ k) (mem (procs a p)) (sending (procs a p)) (receiving (procs a p) ++ [node_req x])
                else Process (map post_instr l ++ k) (mem (procs a p)) (sending (procs a p) ++ [node_req x]) (receiving (procs a p))).
      assert (S : step a (set_proc a p y)).
      { unfold y. destruct (is_recv x); eapply Exec; eauto. }
      destruct (IH (set_proc a p y) p k Hp) as (a' & R & Ch & O & P).
      { cbn. rewrite upd_same. unfold y. now destruct (is_recv x). }
      exists a'. split; [eapply reach_trans; [|exact R]; econstructor; [constructor|exact S]|].
      split; [rewrite Ch; reflexivity|]. split.
      + intros q D. rewrite O by auto. cbn. now rewrite upd_other by auto.
      + rewrite P. cbn. rewrite upd_same. unfold y. cbn [sends_in recvs_in filter]. destruct (is_recv x); cbn [negb mem sending receiving map]; rewrite <- ?app_assoc; reflexivity.
  Qed.
  Lemma exec_step a p i rest x : p < N -> code (procs a p) = i :: rest -> exec_instr op i rest (procs a p) = Some x ->
    reach a (set_proc a p x).
  Proof. intros. econstructor; [constructor|]. eapply Exec; eauto. Qed.

  (* ---------- updates ---------- *)
  Definition upd2 {A} (f : nat -> nat -> A) p q x := upd Nat.eq_dec f p (upd Nat.eq_dec (f p) q x).
  Lemma upd2_same {A} (f : nat -> nat -> A) p q x : upd2 f p q x p q = x.
  Proof. unfold upd2. now rewrite !upd_same. Qed.
  Lemma upd2_other {A} (f : nat -> nat -> A) p q x p' q' : p' <> p \/ q' <> q -> upd2 f p q x p' q' = f p' q'.
  Proof.
    intros D. unfold upd2. destruct (Nat.eq_dec p' p) as [->|E].
    - rewrite upd_same, upd_other; auto. lia.
    - now rewrite upd_other.
  Qed.

  Lemma own_core (l : list post) : Forall (post_ok N c) l -> (forall r, r < c -> of_core r l = []) -> l = [].
  Proof.
    intros F E. destruct l as [|x l]; [reflexivity|]. inversion F as [|? ? [O _] _]; subst.
    specialize (E (own x) O). cbn [of_core filter] in E. rewrite Nat.eqb_refl in E. discriminate.
  Qed.
  Lemma later_head r k : hd_error (later_core c r k) = match k with [] => None | _ => Some Barrier end.
  Proof. now destruct k. Qed.

  (* what a core stands before *)
  Lemma core_head r n h k i rest : core_ok r n h k -> ccode k = i :: rest -> Forall is_local (gL n) -> i <> Barrier ->
    hD h = false /\
    ((exists x l, hP h = x :: l /\ i = post_core c x) \/
     (hP h = [] /\ r = 0 /\ exists l, gL n = i :: l /\ is_local i) \/
     (hP h = [] /\ (r = 0 -> gL n = []) /\ gW n = true /\ i = Waitall)).
  Proof.
    intros (E & _) C F D. rewrite C in E. destruct (hD h).
    { cbn in E. apply (f_equal (@hd_error _)) in E. rewrite later_head in E. destruct (gK n); cbn in E; congruence. }
    split; [reflexivity|]. destruct (hP h) as [|x l].
    2:{ left. exists x, l. split; auto. cbn in E. now injection E. }
    right. cbn [map app] in E. destruct (Nat.eqb_spec r 0) as [->|R].
    - destruct (gL n) as [|j l] eqn:L.
      + right. split; [auto|]. split; [auto|]. cbn [app] in E. unfold waits in E. destruct (gW n).
        * cbn in E. injection E as E _. auto.
        * cbn in E. apply (f_equal (@hd_error _)) in E. rewrite later_head in E. destruct (gK n); cbn in E; congruence.
      + left. split; [auto|]. split; [auto|]. exists l. cbn in E. injection E as -> _. inversion F; subst. split; auto.
    - right. split; [auto|]. split; [intros; lia|]. cbn [app] in E. unfold waits in E. destruct (gW n).
      * cbn in E. injection E as E _. auto.
      * cbn in E. apply (f_equal (@hd_error _)) in E. rewrite later_head in E. destruct (gK n); cbn in E; congruence.
  Qed.

  Lemma rebuild s a a' G H C p r x m n h :
    (forall p, p < N -> node_ok (G p) (procs a p) (nmem s p)) ->
    (forall p r, p < N -> r < c -> core_ok r (G p) (H p r) (cores s (p * c + r))) ->
    (forall p q, p < N -> q < N -> chan a p q = map snd (C p q) /\ pair_ok p q (G p) (G q) (C p q)) ->
    (forall p q r r', p < N -> q < N -> r < c -> r' < c -> cchan s (p * c + r) (q * c + r') = link r r' (C p q)) ->
    p < N -> r < c -> chan a' = chan a -> (forall q, q <> p -> procs a' q = procs a q) ->
    gS n = gS (G p) -> gR n = gR (G p) -> gK n = gK (G p) ->
    node_ok n (procs a' p) m -> core_ok r n h x ->
    (forall r', r' < c -> r' <> r -> core_ok r' n (H p r') (cores s (p * c + r'))) ->
    related (set_nmem (set_core s (p * c + r) x) p m) a'.
  Proof.
    intros A1 A2 A3 A4 Hp Hr Ch O ES ER EK B1 B2 B3.
    exists (upd Nat.eq_dec G p n), (upd2 H p r h), C. cbn [set_nmem set_core nmem cores cchan]. split; [|split; [|split]].
    - intros q Hq. destruct (Nat.eq_dec q p) as [->|D]; [now rewrite !upd_same|]. rewrite !upd_other, O by auto. auto.
    - intros q r' Hq Hr'. destruct (Nat.eq_dec q p) as [->|D].
      + rewrite upd_same. destruct (Nat.eq_dec r' r) as [->|D].
        * rewrite upd2_same, upd_same. auto.
        * rewrite upd2_other, upd_other by lia. auto.
      + rewrite upd2_other, !upd_other by (try lia; intros E; apply rank_inj in E; lia). auto.
    - intros q q' Hq Hq'. rewrite Ch. destruct (A3 q q' Hq Hq') as [X Y]. split; [exact X|].
      unfold pair_ok in *. unfold upd. destruct (Nat.eq_dec q p) as [->|D], (Nat.eq_dec q' p) as [->|D']; rewrite ?ES, ?ER, ?EK; exact Y.
    - exact A4.
  Qed.

  Lemma sim_exec s a p r i rest x : related s a -> p < N -> r < c ->
    ccode (cores s (p * c + r)) = i :: rest -> i <> Barrier ->
    exec_instr op i rest (Process (i :: rest) (nmem s p) (csending (cores s (p * c + r))) (creceiving (cores s (p * c + r)))) = Some x ->
    exists a', reach a a' /\ related (set_nmem (set_core s (p * c + r) (Core (code x) (sending x) (receiving x))) p (mem x)) a'.
  Proof.
    intros (G & H & C & A1 & A2 & A3 & A4) Hp Hr Ec Db Ex.
    pose proof (A1 p Hp) as N0. pose proof (A2 p r Hp Hr) as C0.
    pose proof N0 as (N1 & N2 & N3 & N4 & N5 & N6 & N7 & N8 & N9 & N10 & N11).
    destruct (core_head r (G p) (H p r) _ i rest C0 Ec N7 Db) as [D0 W].
    pose proof C0 as (C1 & C2 & C3 & C4 & C5 & C6). rewrite Ec, D0 in C1.
    destruct W as [(y & l & EP & ->)|[(EP & -> & l & EL & Hi)|(EP & EL & EW & ->)]].
    - (* a request: posted in the system long ago *)
      rewrite EP in *. cbn [map app] in C1. injection C1 as C1.
      exists a. split; [constructor|].
      assert (X : x = if is_recv y then Process rest (nmem s p) (csending (cores s (p * c + r))) (creceiving (cores s (p * c + r)) ++ [core_req y])
                      else Process rest (nmem s p) (csending (cores s (p * c + r)) ++ [core_req y]) (creceiving (cores s (p * c + r)))).
      { unfold post_core in Ex. destruct (is_recv y); cbn in Ex; injection Ex as <-; reflexivity. }
      assert (M : mem x = nmem s p) by (rewrite X; now destruct (is_recv y)).
      apply (rebuild s a a G H C p r _ _ (G p)
        (CG l false (if is_recv y then hS (H p r) else hS (H p r) ++ [y]) (if is_recv y then hR (H p r) ++ [y] else hR (H p r)))); auto.
      + now rewrite M.
      + unfold core_ok. cbn [hD hP hS hR ccode csending creceiving]. rewrite C4, C5, X. cbn [sends_in recvs_in filter].
        destruct (is_recv y); cbn [code sending receiving negb]; rewrite ?map_app, ?C2, ?C3; cbn [map].
        all: split; [exact C1|split; [reflexivity|split; [reflexivity|]]].
        all: rewrite <- ?app_assoc; repeat split; auto; discriminate.
    - (* a copy or reduction by core 0 *)
      assert (E : exec_instr op i rest (Process (i :: rest) (nmem s p) (csending (cores s (p * c + 0))) (creceiving (cores s (p * c + 0)))) =
                  Some (Process rest (exec_local op i (nmem s p)) (csending (cores s (p * c + 0))) (creceiving (cores s (p * c + 0))))).
      { destruct i; try contradiction; reflexivity. }
      rewrite E in Ex. injection Ex as <-. cbn [code mem sending receiving].
      set (y := Process (l ++ waits (gW (G p)) ++ later_code (gK (G p))) (exec_local op i (nmem s p)) (sending (procs a p)) (receiving (procs a p))).
      exists (set_proc a p y). split.
      { apply (exec_step a p i (l ++ waits (gW (G p)) ++ later_code (gK (G p)))); [auto|now rewrite N1, EL|].
        unfold y. rewrite <- N2. destruct i; try contradiction; reflexivity. }
      apply (rebuild s a (set_proc a p y) G H C p 0 _ _ (NG (gS (G p)) (gR (G p)) l (gW (G p)) (gK (G p))) (H p 0)); auto.
      + intros q D. cbn. now rewrite upd_other.
      + cbn [set_proc procs]. rewrite upd_same. unfold node_ok, y. cbn [code mem sending receiving gS gR gL gW gK].
        rewrite EL in N7, N9. split; [reflexivity|]. split; [reflexivity|]. do 4 (split; [assumption|]).
        split; [now inversion N7|]. split; [assumption|]. split; [intros Z; destruct (N9 Z); discriminate|]. split; assumption.
      + unfold core_ok. cbn [ccode csending creceiving gS gR gL gW gK]. rewrite D0. rewrite EP, EL in *. cbn [map app Nat.eqb] in C1 |- *.
        injection C1 as C1. split; [exact C1|]. split; [exact C2|]. split; [exact C3|]. split; [exact C4|]. split; [exact C5|].
        intros; congruence.
      + intros r' Hr' Dr. destruct (A2 p r' Hp Hr') as (E1 & E2 & E3 & E4 & E5 & E6). unfold core_ok. cbn [gS gR gL gW gK].
        destruct (Nat.eqb_spec r' 0); [lia|]. repeat split; auto; try tauto; try lia; apply E6; auto.
    - (* Waitall: the system waits at the next barrier *)
      cbn [exec_instr sending receiving mem] in Ex.
      destruct (csending (cores s (p * c + r))) as [|? ?] eqn:ZS; [|discriminate].
      destruct (creceiving (cores s (p * c + r))) as [|? ?] eqn:ZR; [|discriminate].
      injection Ex as <-. cbn [code mem sending receiving].
      exists a. split; [constructor|].
      apply (rebuild s a a G H C p r _ _ (G p) (CG [] true [] [])); auto.
      unfold core_ok. cbn [hD hP hS hR ccode csending creceiving]. rewrite EP, EW in *.
      assert (Y : (if r =? 0 then gL (G p) else []) = []) by (destruct (Nat.eqb_spec r 0); auto).
      rewrite Y in C1. cbn in C1. injection C1 as C1.
      destruct (hS (H p r)); [|discriminate]. destruct (hR (H p r)); [|discriminate].
      repeat split; auto.
  Qed.

  (* ---------- a barrier ---------- *)
  Lemma core_waits r n h k : core_ok r n h k -> hd_error (ccode k) = Some Barrier -> Forall is_local (gL n) ->
    gK n <> [] /\ hP h = [] /\ (r = 0 -> gL n = []) /\ (gW n = true -> hS h = [] /\ hR h = []) /\
    ccode k = later_core c r (gK n).
  Proof.
    intros (E & _ & _ & _ & _ & D) B F. rewrite E in B |- *. destruct (hD h).
    - cbn [app] in *. destruct (D eq_refl) as (P & S & R & L). rewrite later_head in B. repeat split; auto. destruct (gK n); congruence.
    - destruct (hP h) as [|x l]; [|cbn in B; unfold post_core in B; destruct (is_recv x); discriminate].
      cbn [map app] in *. assert (L : (if r =? 0 then gL n else []) = []).
      { destruct (Nat.eqb_spec r 0); auto. destruct (gL n) as [|i l]; auto. cbn in B. inversion F; subst. injection B as ->. contradiction. }
      rewrite L in *. cbn [app] in *. destruct (gW n); [discriminate|]. cbn [waits app] in *. rewrite later_head in B. repeat split; auto; try discriminate.
      + destruct (gK n); congruence.
      + intros ->. exact L.
  Qed.

  Lemma sim_barrier s a p : related s a -> p < N ->
    (forall r, r < c -> hd_error (ccode (cores s (p * c + r))) = Some Barrier) ->
    exists a', reach a a' /\ related (Cluster (nmem s)
                 (fun k => if k / c =? p then Core (tl (ccode (cores s k))) (csending (cores s k)) (creceiving (cores s k))
                           else cores s k) (cchan s)) a'.
  Proof.
    intros (G & H & C & A1 & A2 & A3 & A4) Hp B.
    pose proof (A1 p Hp) as (N1 & N2 & N3 & N4 & N5 & N6 & N7 & N8 & N9 & N10 & N11).
    assert (W : forall r, r < c -> gK (G p) <> [] /\ hP (H p r) = [] /\ (r = 0 -> gL (G p) = []) /\
                (gW (G p) = true -> hS (H p r) = [] /\ hR (H p r) = []) /\ ccode (cores s (p * c + r)) = later_core c r (gK (G p))).
    { intros r Hr. apply core_waits; auto. }
    destruct (W 0 Hc) as (K0 & _ & L0 & _). specialize (L0 eq_refl).
    destruct (gK (G p)) as [|sg k] eqn:EK; [congruence|]. clear K0 N9.
    assert (Z : gW (G p) = true -> gS (G p) = [] /\ gR (G p) = []).
    { intros T. split; apply own_core; auto; intros r Hr; destruct (W r Hr) as (_ & P & _ & X & _); destruct (X T) as [X1 X2];
        destruct (A2 p r Hp Hr) as (_ & _ & _ & Y1 & Y2 & _); rewrite ?Y1, ?Y2, ?X1, ?X2, P; reflexivity. }
    rewrite L0 in N1. cbn [app later_code] in N1.
    (* the Waitall *)
    assert (R1 : exists a1, reach a a1 /\ chan a1 = chan a /\ (forall q, q <> p -> procs a1 q = procs a q) /\
               procs a1 p = Process (Barrier :: seg_code sg ++ later_code k) (nmem s p) (map node_req (gS (G p))) (map node_req (gR (G p)))).
    { destruct (gW (G p)).
      - destruct (Z eq_refl) as [Z1 Z2]. rewrite Z1, Z2 in *. cbn [map waits app] in *.
        eexists. split; [eapply (exec_step a p Waitall); [exact Hp|exact N1|]|].
        + cbn [exec_instr]. rewrite N3, N4. reflexivity.
        + cbn. split; auto. split; [intros; now rewrite upd_other|]. rewrite upd_same. now rewrite N2.
      - exists a. split; [constructor|]. repeat split; auto. cbn [waits app] in N1. destruct (procs a p); cbn in *. now subst. }
    destruct R1 as (a1 & R1 & Ch1 & O1 & P1).
    (* the barrier *)
    set (y := Process (seg_code sg ++ later_code k) (nmem s p) (map node_req (gS (G p))) (map node_req (gR (G p)))).
    assert (R2 : reach a1 (set_proc a1 p y)).
    { eapply (exec_step a1 p Barrier); [exact Hp|rewrite P1; reflexivity|]. rewrite P1. reflexivity. }
    destruct (post_step (posts sg) (set_proc a1 p y) p (locals sg ++ waits (wait sg) ++ later_code k) Hp) as (a' & R3 & Ch3 & O3 & P3).
    { cbn. rewrite upd_same. cbn. unfold seg_code. now rewrite <- !app_assoc. }
    exists a'. split; [eapply reach_trans; [exact R1|]; eapply reach_trans; [exact R2|exact R3]|].
    cbn in P3. rewrite upd_same in P3. cbn [mem sending receiving y] in P3. rewrite <- !map_app in P3.
    set (n := NG (gS (G p) ++ sends_in (posts sg)) (gR (G p) ++ recvs_in (posts sg)) (locals sg) (wait sg) k).
    assert (T1 : forall q, tags q (gS n) ++ tags q (sends_in (all_posts (gK n))) = tags q (gS (G p)) ++ tags q (sends_in (all_posts (gK (G p))))).
    { intros q. rewrite EK. unfold n, all_posts. cbn [gS gK flat_map]. rewrite sends_app, !tags_app, <- app_assoc. reflexivity. }
    assert (T2 : forall q, tags q (gR n) ++ tags q (recvs_in (all_posts (gK n))) = tags q (gR (G p)) ++ tags q (recvs_in (all_posts (gK (G p))))).
    { intros q. rewrite EK. unfold n, all_posts. cbn [gR gK flat_map]. rewrite recvs_app, !tags_app, <- app_assoc. reflexivity. }
    cbn [good] in N8. destruct N8 as (M1 & M2 & M3 & M4 & M5 & M6).
    exists (upd Nat.eq_dec G p n), (fun q r => if Nat.eq_dec q p then CG (of_core r (posts sg)) false (hS (H p r)) (hR (H p r)) else H q r), C.
    cbn [nmem cores cchan]. split; [|split; [|split]].
    - intros q Hq. destruct (Nat.eq_dec q p) as [->|D].
      2:{ rewrite upd_other, O3 by auto. cbn. rewrite upd_other, O1 by auto. auto. }
      rewrite upd_same, P3. unfold node_ok, n. cbn [code mem sending receiving gS gR gL gW gK].
      split; [reflexivity|]. split; [reflexivity|]. split; [reflexivity|]. split; [reflexivity|].
      split; [|split].
      + cbn [upto] in N5, M1. rewrite sends_app in N5, M1. rewrite <- app_assoc. destruct (gW (G p)).
        * destruct (Z eq_refl) as [-> _]. cbn [app]. destruct (wait sg); exact M1.
        * destruct (wait sg); exact N5.
      + cbn [upto] in N6, M2. rewrite recvs_app in N6, M2. rewrite <- app_assoc. destruct (gW (G p)).
        * destruct (Z eq_refl) as [_ ->]. cbn [app]. destruct (wait sg); exact M2.
        * destruct (wait sg); exact N6.
      + split; [exact M3|]. split; [exact M6|]. split; [exact M5|].
        split; apply Forall_app; split; auto; apply Forall_forall; intros x I; apply filter_In in I; rewrite Forall_forall in M4; apply M4; tauto.
    - intros q r Hq Hr. rewrite rank_div by auto. destruct (Nat.eqb_spec q p) as [->|D].
      + rewrite upd_same. destruct (Nat.eq_dec p p) as [_|]; [|congruence].
        destruct (W r Hr) as (_ & P & _ & _ & E). destruct (A2 p r Hp Hr) as (_ & E2 & E3 & E4 & E5 & _).
        unfold core_ok, n. cbn [ccode csending creceiving gS gR gL gW gK hP hD hS hR].
        rewrite E. cbn [later_core tl]. unfold seg_core. split; [now rewrite <- !app_assoc|]. split; [exact E2|]. split; [exact E3|].
        rewrite P in E4, E5. cbn in E4, E5. rewrite app_nil_r in E4, E5.
        split; [|split; [|discriminate]]; rewrite of_core_app, ?E4, ?E5; f_equal; unfold of_core, sends_in, recvs_in; now rewrite filter_swap.
      + rewrite upd_other by auto. destruct (Nat.eq_dec q p); [congruence|]. auto.
    - intros q q' Hq Hq'. rewrite Ch3. cbn [set_proc chan]. rewrite Ch1. destruct (A3 q q' Hq Hq') as [X Y]. split; [exact X|].
      unfold pair_ok in *. unfold upd. destruct (Nat.eq_dec q p) as [->|D], (Nat.eq_dec q' p) as [->|D']; rewrite ?T1, ?T2; exact Y.
    - exact A4.
  Qed.

  (* ---------- messages ---------- *)
  Lemma map_split {A B} (f : A -> B) : forall l l1 x l2, map f l = l1 ++ x :: l2 ->
    exists a y b, l = a ++ y :: b /\ map f a = l1 /\ f y = x /\ map f b = l2.
  Proof.
    induction l as [|z l IH]; intros l1 x l2 E; [destruct l1; discriminate|]. destruct l1 as [|w l1]; cbn in E; injection E as E1 E2.
    - exists [], z, l. auto.
    - destruct (IH _ _ _ E2) as (a & y & b & -> & F1 & F2 & F3). exists (z :: a), y, b. cbn. repeat split; congruence.
  Qed.

  Lemma rebuild_chan s a s' a' G H C p r x m n h u w ch :
    (forall p, p < N -> node_ok (G p) (procs a p) (nmem s p)) ->
    (forall p r, p < N -> r < c -> core_ok r (G p) (H p r) (cores s (p * c + r))) ->
    (forall p q, p < N -> q < N -> chan a p q = map snd (C p q) /\ pair_ok p q (G p) (G q) (C p q)) ->
    (forall p q r r', p < N -> q < N -> r < c -> r' < c -> cchan s (p * c + r) (q * c + r') = link r r' (C p q)) ->
    p < N -> r < c -> u < N -> w < N ->
    chan a' = upd2 (chan a) u w (map snd ch) -> procs a' p = x -> (forall q, q <> p -> procs a' q = procs a q) ->
    nmem s' p = m -> (forall q, q <> p -> nmem s' q = nmem s q) ->
    (forall k, k <> p * c + r -> cores s' k = cores s k) ->
    cchan s' = upd2 (cchan s) (u * c + r) (w * c + r) (link r r ch) ->
    node_ok n x m -> core_ok r n h (cores s' (p * c + r)) ->
    (forall r', r' < c -> r' <> r -> core_ok r' n (H p r') (cores s (p * c + r'))) ->
    (forall q q', q < N -> q' < N -> pair_ok q q' (upd Nat.eq_dec G p n q) (upd Nat.eq_dec G p n q') (upd2 C u w ch q q')) ->
    (forall r', r' <> r -> link r' r' ch = link r' r' (C u w)) ->
    related s' a'.
  Proof.
    intros A1 A2 A3 A4 Hp Hr Hu Hw Ch P O M1 M2 K Cc B1 B2 B3 B4 B5.
    exists (upd Nat.eq_dec G p n), (upd2 H p r h), (upd2 C u w ch). split; [|split; [|split]].
    - intros q Hq. destruct (Nat.eq_dec q p) as [->|D]; [rewrite upd_same, P, M1; auto|]. rewrite upd_other, O, M2 by auto. auto.
    - intros q r' Hq Hr'. destruct (Nat.eq_dec q p) as [->|D].
      + rewrite upd_same. destruct (Nat.eq_dec r' r) as [->|D].
        * rewrite upd2_same. auto.
        * rewrite upd2_other, K by lia. auto.
      + rewrite upd2_other, upd_other, K by (try lia; intros E; apply rank_inj in E; lia). auto.
    - intros q q' Hq Hq'. split; [|auto]. rewrite Ch. destruct (Nat.eq_dec q u) as [->|D]; [destruct (Nat.eq_dec q' w) as [->|D]|].
      + now rewrite !upd2_same.
      + rewrite !upd2_other by auto. now apply A3.
      + rewrite !upd2_other by auto. now apply A3.
    - intros q q' r1 r2 Hq Hq' H1 H2. rewrite Cc.
      destruct (Nat.eq_dec q u) as [->|D]; [destruct (Nat.eq_dec q' w) as [->|D]|].
      + rewrite upd2_same. destruct (Nat.eq_dec r1 r) as [->|D1]; [destruct (Nat.eq_dec r2 r) as [->|D2]|].
        * now rewrite upd2_same.
        * rewrite upd2_other by lia. rewrite A4 by auto. unfold link. destruct (Nat.eqb_spec r r2); [lia|reflexivity].
        * rewrite upd2_other by lia. rewrite A4 by auto. unfold link. destruct (Nat.eqb_spec r1 r2) as [<-|]; [|reflexivity].
          specialize (B5 r1 D1). unfold link in B5. rewrite Nat.eqb_refl in B5. now rewrite B5.
      + rewrite !upd2_other by (try (right; lia); right; intros E; apply rank_inj in E; lia). auto.
      + rewrite !upd2_other by (try (left; lia); left; intros E; apply rank_inj in E; lia). auto.
  Qed.

  Lemma nodup_gone (s1 s2 k : list post) x : NoDup (map other ((s1 ++ x :: s2) ++ k)) ->
    NoDup (map other ((s1 ++ s2) ++ k)) /\ ~ In (other x) (map other s1) /\ ~ In (other x) (map other (s1 ++ s2)).
  Proof.
    intros D. rewrite <- !app_assoc in *. cbn [app] in D. rewrite map_app in D. cbn [map] in D.
    pose proof (NoDup_remove_1 _ _ _ D) as D1. pose proof (NoDup_remove_2 _ _ _ D) as D2.
    rewrite <- map_app in D1. rewrite map_app in D2. rewrite in_app_iff in D2. split; [exact D1|]. split; [tauto|].
    rewrite map_app, in_app_iff in *. tauto.
  Qed.
  Lemma tags_one s1 x s2 q : ~ In (other x) (map other (s1 ++ s2)) ->
    tags q (s1 ++ x :: s2) = (if other x =? q then [own x] else []) ++ tags q (s1 ++ s2).
  Proof.
    intros D. destruct (Nat.eqb_spec (other x) q) as [E|E].
    - subst q. rewrite (tags_gone _ _ D). rewrite tags_app. rewrite map_app, in_app_iff in D.
      rewrite (tags_gone (other x) s1) by tauto. unfold tags. cbn [filter]. rewrite Nat.eqb_refl. cbn [map app].
      f_equal. apply (tags_gone (other x) s2). tauto.
    - rewrite !tags_app. cbn [app]. f_equal. unfold tags. cbn [filter]. now destruct (Nat.eqb_spec (other x) q).
  Qed.
  Lemma of_core_other r s1 x s2 : own x <> r -> of_core r (s1 ++ x :: s2) = of_core r (s1 ++ s2).
  Proof. intros D. rewrite !of_core_app. f_equal. unfold of_core. cbn [filter]. now destruct (Nat.eqb_spec (own x) r). Qed.

  Lemma sim_depart s a p r k l1 x l2 : related s a -> p < N -> r < c -> k < N * c ->
    csending (cores s (p * c + r)) = l1 ++ x :: l2 -> peer x = k -> ~ In k (map peer l1) ->
    exists a', reach a a' /\ related (set_cchan
        (set_core s (p * c + r) (Core (ccode (cores s (p * c + r))) (l1 ++ l2) (creceiving (cores s (p * c + r)))))
        (p * c + r) k (cchan s (p * c + r) k ++ [read_mem (nmem s p) (place x) (len x)])) a'.
  Proof.
    intros (G & H & C & A1 & A2 & A3 & A4) Hp Hr Hk Es Ek Nk.
    pose proof (A1 p Hp) as (N1 & N2 & N3 & N4 & N5 & N6 & N7 & N8 & N9 & N10 & N11).
    pose proof (A2 p r Hp Hr) as (C1 & C2 & C3 & C4 & C5 & C6).
    rewrite Es in C2. symmetry in C2. apply map_split in C2. destruct C2 as (h1 & y & h2 & E1 & <- & <- & <-).
    rewrite E1 in C4. rewrite <- app_assoc in C4. cbn [app] in C4.
    destruct (filter_split _ _ _ _ _ C4) as (s1 & s2 & E2 & F1 & F2). fold (of_core r s1) in F1. fold (of_core r s2) in F2.
    assert (Oy : own y = r).
    { assert (I : In y (of_core r (gS (G p)))) by (rewrite C4; apply in_elt). apply filter_In in I. destruct I as [_ I]. now apply Nat.eqb_eq in I. }
    assert (Qy : other y < N). { rewrite E2 in N10. rewrite Forall_forall in N10. apply (N10 y). apply in_elt. }
    rewrite E2 in N5. destruct (nodup_gone _ _ _ _ N5) as (D1 & D2 & D3).
    set (q := other y) in *. cbn [peer core_req place len] in *. unfold rank_to in *. fold q in Ek. rewrite Oy in Ek. subst k.
    set (v := read_mem (nmem s p) (spot y) (size y)).
    eexists. split.
    { econstructor; [constructor|]. apply (Depart op N a p q (map node_req s1) (node_req y) (map node_req s2)); auto.
      - rewrite N3, E2, map_app. reflexivity.
      - rewrite map_map. exact D2. }
    set (n := NG (s1 ++ s2) (gR (G p)) (gL (G p)) (gW (G p)) (gK (G p))).
    assert (T : forall q', tags q' (gS (G p)) = (if q =? q' then [r] else []) ++ tags q' (gS n)).
    { intros q'. rewrite E2, (tags_one s1 y s2 q' D3), Oy. reflexivity. }
    cbn [place len node_req]. rewrite N2. fold v.
    apply (rebuild_chan s a _ _ G H C p r (Process (code (procs a p)) (mem (procs a p)) (map node_req s1 ++ map node_req s2) (receiving (procs a p))) (nmem s p) n
             (CG (hP (H p r)) (hD (H p r)) (h1 ++ h2) (hR (H p r))) p q (C p q ++ [(r, v)])); auto.
    - destruct (A3 p q Hp Qy) as [X _]. cbn [set_chan set_proc chan]. unfold upd2. rewrite map_app. cbn [map snd]. now rewrite <- X.
    - cbn. now rewrite N2, upd_same.
    - intros q' D. cbn. now rewrite upd_other.
    - intros k D. cbn. now rewrite upd_other.
    - cbn [set_cchan set_core cchan]. unfold upd2. do 2 f_equal.
      rewrite A4 by auto. unfold link. rewrite Nat.eqb_refl, filter_app. cbn [filter fst]. rewrite Nat.eqb_refl. now rewrite map_app.
    - unfold node_ok, n. cbn [code mem sending receiving gS gR gL gW gK]. rewrite map_app. repeat split; auto; try apply N9; auto.
      rewrite E2 in N10. apply Forall_app in N10. destruct N10 as [X Y]. inversion Y; subst. apply Forall_app; auto.
    - cbn. rewrite upd_same. unfold core_ok, n. cbn [ccode csending creceiving gS gR gL gW gK hP hD hS hR].
      split; [exact C1|]. split; [now rewrite map_app|]. split; [exact C3|]. split; [|split; [exact C5|]].
      + rewrite of_core_app, F1, F2. now rewrite app_assoc.
      + intros T'. destruct (C6 T') as (_ & X & _). rewrite X in E1. destruct h1; discriminate.
    - intros r' Hr' Dr. destruct (A2 p r' Hp Hr') as (X1 & X2 & X3 & X4 & X5 & X6). unfold core_ok, n. cbn [gS gR gL gW gK].
      rewrite E2, of_core_other in X4 by congruence. repeat split; auto; apply X6; auto.
    - intros q1 q2 H1 H2. destruct (A3 q1 q2 H1 H2) as [_ Y]. unfold pair_ok in *.
      assert (TR : gR (upd Nat.eq_dec G p n q2) = gR (G q2)) by (unfold upd; destruct (Nat.eq_dec q2 p) as [->|]; reflexivity).
      assert (TK : forall q', gK (upd Nat.eq_dec G p n q') = gK (G q')) by (intros q'; unfold upd; destruct (Nat.eq_dec q' p) as [->|]; reflexivity).
      rewrite TR, !TK. rewrite <- Y. destruct (Nat.eq_dec q1 p) as [->|E].
      + rewrite upd_same, T. destruct (Nat.eqb_spec q q2) as [<-|D].
        * rewrite upd2_same, map_app, <- !app_assoc. reflexivity.
        * rewrite upd2_other by auto. reflexivity.
      + rewrite upd_other, upd2_other by auto. reflexivity.
    - intros r' D. unfold link. rewrite Nat.eqb_refl, filter_app. cbn [filter fst]. destruct (Nat.eqb_spec r r'); [congruence|]. now rewrite app_nil_r.
  Qed.

  Lemma sim_arrive s a k q r l1 x l2 v vs : related s a -> k < N * c -> q < N -> r < c ->
    creceiving (cores s (q * c + r)) = l1 ++ x :: l2 -> peer x = k -> ~ In k (map peer l1) ->
    cchan s k (q * c + r) = v :: vs -> length v <= len x ->
    exists a', reach a a' /\ related (set_cchan
        (set_nmem (set_core s (q * c + r) (Core (ccode (cores s (q * c + r))) (csending (cores s (q * c + r))) (l1 ++ l2)))
                  q (write_mem (nmem s q) (place x) v))
        k (q * c + r) vs) a'.
  Proof.
    intros (G & H & C & A1 & A2 & A3 & A4) Hk Hq Hr Es Ek Nk Ev Lv.
    pose proof (A1 q Hq) as (N1 & N2 & N3 & N4 & N5 & N6 & N7 & N8 & N9 & N10 & N11).
    pose proof (A2 q r Hq Hr) as (C1 & C2 & C3 & C4 & C5 & C6).
    rewrite Es in C3. symmetry in C3. apply map_split in C3. destruct C3 as (h1 & y & h2 & E1 & <- & <- & <-).
    rewrite E1 in C5. rewrite <- app_assoc in C5. cbn [app] in C5.
    destruct (filter_split _ _ _ _ _ C5) as (s1 & s2 & E2 & F1 & F2). fold (of_core r s1) in F1. fold (of_core r s2) in F2.
    assert (Oy : own y = r).
    { assert (I : In y (of_core r (gR (G q)))) by (rewrite C5; apply in_elt). apply filter_In in I. destruct I as [_ I]. now apply Nat.eqb_eq in I. }
    assert (Py : other y < N). { rewrite E2 in N11. rewrite Forall_forall in N11. apply (N11 y). apply in_elt. }
    rewrite E2 in N6. destruct (nodup_gone _ _ _ _ N6) as (D1 & D2 & D3).
    set (p := other y) in *. cbn [peer core_req place len] in *. unfold rank_to in *. fold p in Ek. rewrite Oy in Ek. subst k.
    set (n := NG (gS (G q)) (s1 ++ s2) (gL (G q)) (gW (G q)) (gK (G q))).
    assert (T : forall p', tags p' (gR (G q)) = (if p =? p' then [r] else []) ++ tags p' (gR n)).
    { intros p'. rewrite E2, (tags_one s1 y s2 p' D3), Oy. reflexivity. }
    destruct (A3 p q Py Hq) as [X Y]. pose proof Ev as Ev'. rewrite A4 in Ev' by auto. unfold link in Ev'. rewrite Nat.eqb_refl in Ev'.
    unfold pair_ok in Y. rewrite T, Nat.eqb_refl in Y.
    destruct (C p q) as [|[t u] ch] eqn:EC; [discriminate|]. cbn [map fst app] in Y. injection Y as -> Y.
    cbn [filter fst] in Ev'. rewrite Nat.eqb_refl in Ev'. cbn [map snd] in Ev'. injection Ev' as -> Ev'. cbn [map snd] in X.
    eexists. split.
    { econstructor; [constructor|]. apply (Arrive op N a p q (map node_req s1) (node_req y) (map node_req s2) v (map snd ch)); auto.
      - rewrite N4, E2, map_app. reflexivity.
      - rewrite map_map. exact D2. }
    cbn [place len node_req]. rewrite N2.
    apply (rebuild_chan s a _ _ G H C q r (Process (code (procs a q)) (write_mem (nmem s q) (spot y) v) (sending (procs a q)) (map node_req s1 ++ map node_req s2))
             (write_mem (nmem s q) (spot y) v) n
             (CG (hP (H q r)) (hD (H q r)) (hS (H q r)) (h1 ++ h2)) p q ch); auto.
    - cbn. now rewrite upd_same.
    - intros q' D. cbn. now rewrite upd_other.
    - cbn. now rewrite upd_same.
    - intros q' D. cbn. now rewrite upd_other.
    - intros k D. cbn. now rewrite upd_other.
    - cbn [set_cchan set_nmem set_core cchan]. unfold upd2. do 2 f_equal. unfold link. rewrite Nat.eqb_refl. auto.
    - unfold node_ok, n. cbn [code mem sending receiving gS gR gL gW gK]. rewrite map_app. repeat split; auto; try apply N9; auto.
      rewrite E2 in N11. apply Forall_app in N11. destruct N11 as [Z1 Z2]. inversion Z2; subst. apply Forall_app; auto.
    - cbn. rewrite upd_same. unfold core_ok, n. cbn [ccode csending creceiving gS gR gL gW gK hP hD hS hR].
      split; [exact C1|]. split; [exact C2|]. split; [now rewrite map_app|]. split; [exact C4|]. split.
      + rewrite of_core_app, F1, F2. now rewrite app_assoc.
      + intros T'. destruct (C6 T') as (_ & _ & Z & _). rewrite Z in E1. destruct h1; discriminate.
    - intros r' Hr' Dr. destruct (A2 q r' Hq Hr') as (X1 & X2 & X3 & X4 & X5 & X6). unfold core_ok, n. cbn [gS gR gL gW gK].
      rewrite E2, of_core_other in X5 by congruence. repeat split; auto; apply X6; auto.
    - intros q1 q2 H1 H2. destruct (A3 q1 q2 H1 H2) as [_ Z]. unfold pair_ok in *.
      assert (TS : gS (upd Nat.eq_dec G q n q1) = gS (G q1)) by (unfold upd; destruct (Nat.eq_dec q1 q) as [->|]; reflexivity).
      assert (TK : forall q', gK (upd Nat.eq_dec G q n q') = gK (G q')) by (intros q'; unfold upd; destruct (Nat.eq_dec q' q) as [->|]; reflexivity).
      rewrite TS, !TK. destruct (Nat.eq_dec q2 q) as [->|E].
      + rewrite upd_same. destruct (Nat.eq_dec q1 p) as [->|D].
        * rewrite upd2_same. exact Y.
        * rewrite upd2_other by auto. rewrite Z, T. destruct (Nat.eqb_spec p q1); [congruence|]. reflexivity.
      + rewrite upd_other, upd2_other by auto. exact Z.
    - intros r' D. rewrite EC. unfold link. rewrite Nat.eqb_refl. cbn [filter fst]. destruct (Nat.eqb_spec r r'); [congruence|]. reflexivity.
  Qed.

  Theorem sim_step s a s' : related s a -> cstep op N c s s' -> exists a', reach a a' /\ related s' a'.
  Proof.
    intros R St. destruct St.
    - eapply sim_exec; eauto.
    - now apply sim_barrier.
    - now apply sim_depart.
    - eapply sim_arrive; eauto.
  Qed.
End Sim.
