From Verif Require Import Base SchedModel RawModel FinalModel WaitanyModel WaitanySpec WaitanyProofs WaitPassModel WaitPassSpec.
Local Ltac Zify.zify_post_hook ::= idtac.
Local Open Scope nat_scope.

(* input lines *)
Definition is_input (l : wline) : Prop := match l with Any _ _ | Attached => False | Line Waitall => False | _ => True end.

Lemma numbered_input ls : forall n, Forall is_input (numbered n ls).
Proof. induction ls as [|[] ls IH]; simpl; intros n; repeat constructor; auto. Qed.

Lemma restored_attached k ls : restored (repeat Attached k ++ ls) = restored ls.
Proof. induction k; simpl; auto. Qed.

Lemma waitany_restored ls : Forall is_input ls -> forall nwait natt flag last, restored (waitany nwait natt flag last ls) = ls.
Proof.
  induction 1 as [|l ls I F IH]; intros nwait natt flag last; [reflexivity|].
  assert (S : forall k last', restored (repeat Attached k ++ l :: waitany nwait nwait false last' ls) = l :: ls).
  { intros k last'. rewrite restored_attached. destruct l; try destruct I; simpl; now rewrite IH. }
  assert (T : forall last', restored (l :: waitany nwait natt flag last' ls) = l :: ls).
  { intros last'. destruct l; try destruct I; simpl; now rewrite IH. }
  destruct l as [[]|n|n neg| |]; try destruct I; cbn [waitany]; try (destruct flag; [apply S|apply T]); try apply T.
  - destruct flag; [|apply T]. simpl. now rewrite IH.
  - destruct (natt =? nwait); [simpl; now rewrite IH|]. destruct flag; [apply S|apply T].
Qed.

(* ---- the executor can read it ---- *)
Definition closed (ls : list wline) : Prop := exists r, ls = r ++ [Return].

Lemma numbered_closed ls : forall n, closed (numbered n ls).
Proof.
  induction ls as [|i ls IH]; intros n; [now exists []|].
  assert (E : exists l n', numbered n (i :: ls) = l :: numbered n' ls) by (destruct i; simpl; eauto).
  destruct E as (l & n' & ->). destruct (IH n') as (r & ->). now exists (l :: r).
Qed.

Lemma readable_attached k ls : forall left, readable left (repeat Attached k ++ ls) = readable (left - k) ls.
Proof.
  induction k; intros left; simpl; [now rewrite Nat.sub_0_r|]. rewrite IHk. f_equal. lia.
Qed.

Definition open (nwait natt : nat) (flag : bool) : nat := if flag then nwait - natt else 0.
Definition good (nwait natt : nat) (flag : bool) : Prop :=
  if flag then nwait = 0 \/ natt < nwait else natt = nwait.

Lemma without_app a b : without_barriers (a ++ b) = without_barriers a ++ without_barriers b.
Proof. apply filter_app. Qed.
Lemma without_attached k : without_barriers (repeat Attached k) = repeat Attached k.
Proof. induction k; simpl; [reflexivity|]. unfold without_barriers in *. simpl. now rewrite IHk. Qed.

Lemma waitany_readable ls : Forall is_input ls -> ls = [] \/ closed ls -> forall nwait natt flag last,
  good nwait natt flag -> (ls = [] -> flag = false) ->
  readable (open nwait natt flag) (without_barriers (waitany nwait natt flag last ls)) = true.
Proof.
  induction 1 as [|l ls I F IH]; intros C nwait natt flag last G E.
  { rewrite (E eq_refl). reflexivity. }
  destruct C as [C|(r & C)]; [discriminate|].
  assert (C' : ls = [] \/ closed ls).
  { destruct r as [|x r]; [left|right; exists r]; injection C as _ C; exact C. }
  assert (EL : ls = [] -> l = Return).
  { intros ->. destruct r as [|x [|]]; now injection C. }
  clear C r E.
  assert (IHf : forall nwait last, readable 0 (without_barriers (waitany nwait nwait false last ls)) = true).
  { intros w la. apply (IH C' w w false la); [reflexivity|auto]. }
  assert (P : forall (keep : readable 0 (without_barriers (l :: waitany nwait nwait false last ls)) = true),
            readable (nwait - natt) (without_barriers (repeat Attached (nwait - natt) ++ l :: waitany nwait nwait false last ls)) = true).
  { intros keep. rewrite without_app, without_attached, readable_attached, Nat.sub_diag. exact keep. }
  destruct l as [[d n q|s n q| | |d s n|d s n]|n|n neg| |]; try destruct I; cbn [waitany].
  - destruct flag; cbn [open]; [apply P|unfold good in G; subst natt]; simpl; apply IHf.
  - destruct flag; cbn [open]; [apply P|unfold good in G; subst natt]; simpl; apply IHf.
  - (* Barrier *)
    change (readable (open nwait natt flag) (without_barriers (waitany nwait natt flag last ls)) = true).
    apply IH; auto. intros ->. discriminate (EL eq_refl).
  - destruct flag; cbn [open]; [apply P|unfold good in G; subst natt]; simpl; apply IHf.
  - (* Reduce_ *)
    destruct flag.
    2:{ unfold good in G. subst natt. simpl. apply IHf. }
    cbn [open without_barriers filter readable]. unfold good in G.
    specialize (IH C' nwait (S natt) (negb (S natt =? nwait)) last).
    assert (N : ls <> []) by (intros ->; discriminate (EL eq_refl)).
    destruct (Nat.eqb_spec (S natt) nwait) as [Q|Q]; cbn [negb] in *.
    + replace (nwait - natt - 1) with 0 by lia. apply IH; [exact Q|contradiction].
    + replace (nwait - natt - 1) with (nwait - S natt) by lia.
      apply IH; [unfold good; lia|contradiction].
  - (* All *)
    destruct (Nat.eqb_spec natt nwait) as [->|Q].
    + assert (O : open nwait nwait flag = 0) by (destruct flag; simpl; lia). rewrite O.
      cbn [without_barriers filter readable]. simpl.
      specialize (IH C' n 0 true last). cbn [open] in IH. rewrite Nat.sub_0_r in IH. apply IH; [unfold good; lia|].
      intros ->. discriminate (EL eq_refl).
    + destruct flag; [|unfold good in G; lia]. cbn [open]. apply P. simpl. apply IHf.
  - (* Return *)
    destruct flag; cbn [open]; [apply P|unfold good in G; subst natt]; simpl; apply IHf.
Qed.

Theorem pass_readable ls : readable 0 (without_barriers (waitany_pass ls)) = true.
Proof.
  apply (waitany_readable _ (numbered_input ls 0) (or_intror (numbered_closed ls 0)) 0 0 false None); [reflexivity|].
  intros E. destruct (numbered_closed ls 0) as (r & E'). rewrite E' in E. now destruct r.
Qed.
Theorem pass_restored ls : restored (waitany_pass ls) = numbered 0 ls.
Proof. apply waitany_restored, numbered_input. Qed.

(* ---- messages reported in order ---- *)
Section Order.
  Context (reqs : list request) (payload : memory).

  Lemma req_seq (f : request -> memory -> memory) : forall pre post m, reqs = pre ++ post ->
    fold_left (fun m i => f (req reqs i) m) (seq (length pre) (length post)) m = fold_left (fun m r => f r m) post m.
  Proof.
    intros pre post. revert pre. induction post as [|x post IH]; intros pre m E; [reflexivity|].
    cbn [length seq fold_left]. assert (Q : req reqs (length pre) = x).
    { unfold req. rewrite E, app_nth2, Nat.sub_diag by lia. reflexivity. }
    rewrite Q. specialize (IH (pre ++ [x]) (f x m)). rewrite app_length in IH. simpl in IH.
    rewrite Nat.add_1_r in IH. apply IH. now rewrite E, <- app_assoc.
  Qed.

  Definition deliver (r : request) (m : memory) : memory :=
    if is_send r then m else fun a => if insideb (base r) (size r) a then payload a else m a.

  Lemma transfers_mem l : forall s, mem (fold_left (fun s e => step reqs payload false e s) (map Transfer l) s) =
    fold_left (fun m i => deliver (req reqs i) m) l (mem s).
  Proof.
    induction l as [|i l IH]; intros s; [reflexivity|]. simpl. rewrite IH. f_equal.
    unfold transfer, deliver. destruct (is_send (req reqs i)); reflexivity.
  Qed.
  Lemma completes_mem l : forall s, mem (fold_left (fun s e => step reqs payload false e s) (map Complete l) s) =
    fold_left (fun m i => reduce_list (reds (req reqs i)) m) l (mem s).
  Proof.
    induction l as [|i l IH]; intros s; [reflexivity|]. simpl. rewrite IH. f_equal.
    unfold complete_direct, reduce_waitany, tos, froms, lens. cbn [mem set_mem]. now rewrite zip3_self.
  Qed.
  Lemma reduce_all : forall rs m, fold_left (fun m r => reduce_list (reds r) m) rs m = reduce_list (flat_map reds rs) m.
  Proof.
    induction rs as [|r rs IH]; intros m; [reflexivity|]. simpl. rewrite IH. unfold reduce_list. now rewrite fold_left_app.
  Qed.

  Theorem in_order_plain m0 : mem (exec reqs payload false (in_order_trace (length reqs)) m0) = plain reqs payload m0.
  Proof.
    unfold exec, in_order_trace. rewrite fold_left_app, completes_mem, transfers_mem. cbn [mem start].
    pose proof (req_seq deliver [] reqs m0 eq_refl) as X. cbn [length] in X. rewrite X.
    pose proof (fun m => req_seq (fun r => reduce_list (reds r)) [] reqs m eq_refl) as Y. cbn [length] in Y.
    rewrite Y, reduce_all. reflexivity.
  Qed.
End Order.

Lemma in_order_possible n : possible n (in_order_trace n).
Proof.
  split; [reflexivity|]. intros i a b E.
  assert (I : In (Complete i) (in_order_trace n)) by (rewrite E; apply in_or_app; right; now left).
  assert (T : In (Transfer i) (map Transfer (seq 0 n))).
  { unfold in_order_trace in I. apply in_app_or in I. destruct I as [I|I]; apply in_map_iff in I.
    - destruct I as (x & Q & _). discriminate.
    - destruct I as (x & Q & I). injection Q as ->. now apply in_map. }
  unfold in_order_trace in E.
  assert (L : forall p q a, map Transfer p ++ q = a ++ Complete i :: b -> exists a', a = map Transfer p ++ a').
  { induction p as [|x p IH]; intros q a0 E0; [now exists a0|]. destruct a0 as [|y a0]; [discriminate|].
    injection E0 as <- E0. destruct (IH _ _ E0) as (a' & ->). now exists a'. }
  destruct (L _ _ _ E) as (a' & ->). apply in_or_app. now left.
Qed.

Theorem order_irrelevant reqs payload m0 tr : layout reqs -> sends_apart reqs -> possible (length reqs) tr ->
  forall a, (forall j, j < length reqs -> is_send (req reqs j) = false -> ~ inside (base (req reqs j)) (size (req reqs j)) a) ->
  mem (exec reqs payload false tr m0) a = plain reqs payload m0 a.
Proof.
  intros L S T a Ha. rewrite <- in_order_plain.
  pose proof (direct_ok reqs payload m0 L tr T S) as (X & _).
  pose proof (direct_ok reqs payload m0 L _ (in_order_possible (length reqs)) S) as (Y & _).
  now rewrite X, Y.
Qed.
