(* Numbers split into a digit and the rest. *)
From Verif Require Import Base SchedModel GroupModel.
Local Open Scope Z_scope.

(* The group split at this step is meaningful: sizes are positive and the
   sockets fill whole groups. *)
Definition splits (P : params) (u0 step : Z) : Prop :=
  let '(j, g) := split_at P step u0 in 0 < j /\ 0 < g /\ (j * g | p_sockets P).

(* The position inside the group and the components in range. *)
Definition in_range (P : params) (u0 step : Z) (l : Z) (c : Z * Z) : Prop :=
  let '(j, g) := split_at P step u0 in
  0 <= l < g /\ 0 <= fst c < j /\ 0 <= snd c < Z.quot (p_sockets P) (j * g).

(* The groups 0, 1, ..., k on one side (sign) of the middle cover the sockets:
   the product of their sizes is the number of sockets. *)
Definition sizes (P : params) (u0 : Z) (sign : Z) (k : nat) : list Z :=
  map (fun i => snd (split_at P (sign * Z.of_nat i) u0)) (seq 0 (S k)).
Definition covers (P : params) (u0 sign : Z) (k : nat) : Prop :=
  Forall (fun g => 0 < g) (sizes P u0 sign k) /\
  fold_right Z.mul 1 (sizes P u0 sign k) = p_sockets P.

(* Configurations as the user writes them: groups, each a list of ports and a
   size; in the arrays the size is repeated for every port of the group and
   negative for the last one. *)
Definition entries (g : list Z * Z) : list (Z * Z) :=
  map (fun p => (p, snd g)) (removelast (fst g)) ++ [(last (fst g) 0, - snd g)].
Definition layout (gs : list (list Z * Z)) (sockets : Z) : params :=
  Params (map fst (flat_map entries gs)) (map snd (flat_map entries gs)) sockets.
Definition size_product (gs : list (list Z * Z)) : Z := fold_right Z.mul 1 (map snd gs).
(* A configuration that goes down in the groups [down], has the groups [mid] in
   the middle and comes up in the groups [up]: groups have ports and at least two
   members, the ports on the way down, and not all those of the next group, are
   negative, and the way up leads back where the way down started. *)
Definition hierarchy (down mid up : list (list Z * Z)) : Prop :=
  Forall (fun g => fst g <> [] /\ 2 <= snd g) (down ++ mid ++ up) /\
  Forall (fun g => Forall (fun p => p < 0) (fst g)) down /\
  match mid ++ up with [] => True | g :: _ => ~ Forall (fun p => p < 0) (fst g) end /\
  size_product up = size_product down.
