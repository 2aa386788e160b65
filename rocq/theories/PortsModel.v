(* Model of src/core/ports_groups.c.  The fixed buffer sizes (10000 characters,
   1000 copy-in factors) are not modelled. *)
From Verif Require Import Base TextModel.

(* ext_mpi_print_copyin (6-16): the last character written is overwritten by
   the terminating 0.  [factors]: the entries before the terminating 0. *)
Definition print_copyin (meth : Z) (factors : list Z) : text :=
  removelast (print_int meth ++ [";"%char] ++ flat_map (fun f => print_int f ++ [" "%char]) factors).

(* ext_mpi_scan_copyin (18-35).  An undefined result (sscanf stores nothing) is
   None.  First the first ';' is replaced by a blank (22-23). *)
Fixpoint blank_first (s : text) : text :=
  match s with
  | c :: r => if (c =? ";")%char then " "%char :: r else c :: blank_first r
  | [] => []
  end.
(* loop 27-31 *)
Definition is_blank (c : ascii) : bool := (c =? " ")%char.
Fixpoint scan_factors (fuel : nat) (s : text) : option (list Z) :=
  match fuel, s with
  | _, [] => Some []
  | O, _ => None
  | S f, _ =>
    match skip_while is_blank (skip_while (fun c => negb (is_blank c)) s) with
    | [] => Some []
    | s' => let! (v, _) := scan_int s' in
            let! vs := scan_factors f s' in Some (v :: vs)
    end
  end.
Definition scan_copyin (s : text) : option (Z * list Z) :=
  let s' := blank_first s in
  let! (meth, _) := scan_int s' in
  let! fs := scan_factors (List.length s') s' in
  Some (meth, fs).

(* ext_mpi_print_ports_groups (37-52), the loop.  The two arrays are a list of
   (port, group) pairs, without the terminating (0,0).  Running into the
   terminator inside a group reads past the arrays: None. *)
Fixpoint print_loop (inside : bool) (l : list (Z * Z)) : option text :=
  match l with
  | [] => if inside then None else Some []
  | (p, g) :: r =>
    if inside then
      if (0 <? g)%Z
      then let! t := print_loop true r in Some (print_int p ++ [" "%char] ++ t)
      else let! t := print_loop false r in Some (print_int p ++ [")"; " "]%char ++ t)
    else if (g =? 0)%Z || (p =? 0)%Z then Some []
    else
      let head := print_int (Z.abs g) ++ ["("%char] in
      if (0 <? g)%Z
      then let! t := print_loop true r in Some (head ++ print_int p ++ [" "%char] ++ t)
      else let! t := print_loop false r in Some (head ++ print_int p ++ [")"; " "]%char ++ t)
  end.
(* line 50 writes before the buffer if nothing was printed: None *)
Definition print_ports_groups (ports groups : list Z) : option text :=
  let! t := print_loop false (combine ports groups) in
  match t with [] => None | _ => Some (removelast t) end.

(* ext_mpi_scan_ports_groups (54-106) *)
Definition sep1 (c : ascii) : bool := (c =? " ")%char || (c =? ",")%char.
Definition sep_open (c : ascii) : bool := sep1 c || (c =? "(")%char.
Definition sep_close (c : ascii) : bool := sep1 c || (c =? ")")%char.

(* The loop 79-95 over the ports of a group: returns the ports and the rest of
   the text.  Running past the end of the string is None. *)
Fixpoint scan_group (fuel : nat) (s : text) : option (list Z * text) :=
  match fuel with
  | O => None
  | S f =>
    match break sep_close s with
    | (_, []) => None
    | (tok, c :: r) =>
      let! (p, _) := scan_int tok in
      let r' := skip_while sep1 r in
      if (c =? ")")%char then Some ([p], r')
      else let! (ps, r'') := scan_group f r' in Some (p :: ps, r'')
    end
  end.
(* The entries of groups for the ports of one group: all equal, the last negated (96). *)
Definition group_entries (g : Z) (n : nat) : list Z := repeat g (n - 1) ++ [(- g)%Z].
Fixpoint scan_loop (fuel : nat) (s : text) : option (list Z * list Z) :=
  match s with
  | [] => Some ([], [])
  | _ =>
    match fuel with
    | O => None
    | S f =>
      match break sep_open s with
      | (_, []) => None
      | (tok, _ :: r) =>
        let! (g, _) := scan_int tok in
        let! (ps, r') := scan_group (List.length r) (skip_while sep_open r) in
        let! (ports, groups) := scan_loop f (skip_while sep1 r') in
        Some (ps ++ ports, group_entries g (List.length ps) ++ groups)
      end
    end
  end.
Definition scan_ports_groups (s : text) : option (list Z * list Z) :=
  scan_loop (List.length s) (skip_while sep1 s).
