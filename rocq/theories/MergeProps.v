(* Claim C27: merging neighbouring copies. *)
From Verif Require Import Base MergeModel MergeSpec MergeProofs.
Local Open Scope Z_scope.

(* If neighbours are regular and source and destination of every merged line are
   disjoint, memory ends up the same for every initial memory, every reduction
   operator and whatever the other lines do. *)
Theorem C27_merge_keeps_memory :
  forall (V : Type) (op : V -> V -> V) (other : Z -> (buf -> Z -> V) -> buf -> Z -> V),
  (forall x m m', same m m' -> same (other x m) (other x m')) ->
  forall ls, regular ls -> sized ls -> (forall l, In l (merge ls) -> valid l) ->
  forall m, same (run op other (merge ls) m) (run op other ls m).
Proof. exact @merge_correct. Qed.
Print Assumptions C27_merge_keeps_memory.

Definition A : buf := Buf 0 0 (-1).
Definition B : buf := Buf 0 1 (-1).
Definition mc (o1 o2 n : Z) : ln := Cpy (Copy memcpy A o1 B o2 n).
Example C27_example :
  let ls := [mc 0 10 4; mc 4 14 2; mc 6 16 5; Oth 0; mc 30 40 5; mc 25 35 5; mc 20 30 5] in
  regular ls /\ sized ls /\ (forall l, In l (merge ls) -> valid l) /\ merge ls = [mc 0 10 11; Oth 0; mc 20 30 15].
Proof.
  intros ls. split; [|split; [|split]].
  - cbn. repeat split; cbn; lia.
  - intros c H. cbn in H. decompose [or] H; try contradiction; match goal with E : _ = Cpy c |- _ => inversion E; subst end; cbn; lia.
  - intros l H. vm_compute in H. destruct H as [<-|[<-|[<-|[]]]]; cbn; try exact I; (split; [lia|left; discriminate]).
  - reflexivity.
Qed.

Definition idle : Z -> (buf -> Z -> Z) -> buf -> Z -> Z := fun _ m => m.
(* Putting a copy of another size in front covers the wrong bytes: byte 14 is
   never copied. *)
Theorem C27_backward_sizes_refuted :
  exists ls, sized ls /\ (forall l, In l ls -> valid l) /\ (forall l, In l (merge ls) -> valid l) /\
  exists m, ~ same (run Z.add idle (merge ls) m) (run Z.add idle ls m).
Proof.
  exists [mc 10 10 5; mc 5 5 3]. split; [|split; [|split]].
  - intros c [E|[E|[]]]; inversion E; subst; cbn; lia.
  - intros l [<-|[<-|[]]]; (split; [cbn; lia|left; discriminate]).
  - intros l H. vm_compute in H. destruct H as [<-|[]]. split; [cbn; lia|left; discriminate].
  - exists (fun b a => if buf_eq b B then 1 else 0). intros H. specialize (H A 14). vm_compute in H. discriminate.
Qed.
Print Assumptions C27_backward_sizes_refuted.

(* Buffer kinds are not compared: copies into two different buffers are merged
   into one. *)
Theorem C27_buffer_kinds_refuted :
  exists ls, sized ls /\ (forall l, In l ls -> valid l) /\ (forall l, In l (merge ls) -> valid l) /\
  exists m, ~ same (run Z.add idle (merge ls) m) (run Z.add idle ls m).
Proof.
  exists [Cpy (Copy memcpy (Buf 1 (-1) (-1)) 0 (Buf 2 (-1) (-1)) 0 4); Cpy (Copy memcpy (Buf 2 (-1) (-1)) 4 (Buf 1 (-1) (-1)) 4 4)].
  split; [|split; [|split]].
  - intros c [E|[E|[]]]; inversion E; subst; cbn; lia.
  - intros l [<-|[<-|[]]]; (split; [cbn; lia|left; discriminate]).
  - intros l H. vm_compute in H. destruct H as [<-|[]]. split; [cbn; lia|left; discriminate].
  - exists (fun b a => if buf_eq b (Buf 2 (-1) (-1)) then 1 else 0). intros H. specialize (H (Buf 2 (-1) (-1)) 5). vm_compute in H. discriminate.
Qed.
Print Assumptions C27_buffer_kinds_refuted.

(* Only one special case of overlap is excluded: here each copy alone is fine,
   but the second reads what the first wrote, the merged one does not. *)
Theorem C27_overlap_refuted :
  exists ls, regular ls /\ sized ls /\ (forall l, In l ls -> valid l) /\
  exists m, ~ same (run Z.add idle (merge ls) m) (run Z.add idle ls m).
Proof.
  exists [Cpy (Copy memcpy A 6 A 0 4); Cpy (Copy memcpy A 10 A 4 5)].
  split; [|split; [|split]].
  - cbn. repeat split; cbn; lia.
  - intros c [E|[E|[]]]; inversion E; subst; cbn; lia.
  - intros l [<-|[<-|[]]]; (split; [cbn; lia|right; right; cbn; lia]).
  - exists (fun b a => a). intros H. specialize (H A 12). vm_compute in H. discriminate.
Qed.
Print Assumptions C27_overlap_refuted.
