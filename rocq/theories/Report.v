(** Error reports: the place in the source (reporting.rs:11-70, 88-103, 148-262) and the stack trace (vm/error.rs:103-142, 182-194, vm/value/func.rs:94-96).

    One source entry; a location is its start and width, in characters (scanner.rs:533-555).
    The text of the error is a parameter. *)
From Coq Require Import String.
From Verif Require Import Base Native Value Str.
From Verif Require Scan.
Local Open Scope nat_scope.

(** reporting.rs:13-22 *)
Record location := Loc { start : nat; width : nat }.
(** reporting.rs:38-41 *)
Definition end_ (l : location) : nat := start l + width l - 1.
Definition is_empty (l : location) : bool := width l =? 0.
(** reporting.rs:44-54 *)
Definition join (a b : location) : location :=
  let s := Nat.min (start a) (start b) in let e := Nat.max (end_ a) (end_ b) in Loc s (e - s + 1).

(** std `split('\n')` *)
Fixpoint split_lines (t : list Z) : list (list Z) :=
  match t with
  | [] => [[]]
  | c :: r => if (c =? 10)%Z then [] :: split_lines r else match split_lines r with l :: ls => (c :: l) :: ls | [] => [[c]] end
  end.
(** `str::len` is in bytes *)
Definition byte_len (l : list Z) : nat := length (utf8 l).
(** `line.strip_suffix('\r')` *)
Fixpoint strip_cr (l : list Z) : list Z :=
  match l with [] => [] | [c] => if (c =? 13)%Z then [] else [c] | c :: r => c :: strip_cr r end.
(** reporting.rs:244-262 *)
Definition lines (t : list Z) : list (list Z) := map strip_cr (split_lines t).
Fixpoint starts_from (s : nat) (ls : list (list Z)) : list nat :=
  match ls with [] => [s] | l :: r => s :: starts_from (s + (byte_len l + 1)) r end.
Definition starts (t : list Z) : list nat := starts_from 0 (split_lines t).

(** std `partition_point`, on a list that is partitioned *)
Fixpoint partition_point (f : nat -> bool) (l : list nat) : nat := match l with x :: r => if f x then S (partition_point f r) else 0 | [] => 0 end.
(** reporting.rs:151-157 *)
Definition lineno (t : list Z) (l : location) : option nat :=
  if is_empty l then None else Some (partition_point (fun u => u <=? start l) (starts t) - 1).

(** reporting.rs:166-170; [None]: index out of bounds *)
Fixpoint end_loop (fuel : nat) (ss : list nat) (e n : nat) : option nat :=
  match fuel with
  | O => None
  | S fuel => match nth_error ss (n + 1) with None => None | Some s => if s <? e then end_loop fuel ss e (n + 1) else Some n end
  end.
Definition repeated (c : Z) (n : nat) : list Z := repeat c n.
(** `{:width$}` *)
Definition padded (w n : nat) : list Z := let d := show_dec (Z.of_nat n) in repeated 32 (w - length d) ++ d.
(** `a..=b` *)
Definition count_to (a b : nat) : nat := b + 1 - a.
(** reporting.rs:159-242; [None] is a panic.  [trace] is what add_stack_trace_elements adds. *)
Definition format (name error trace : list Z) (t : list Z) (loc : location) : option (list Z) :=
  let ls := lines t in let ss := starts t in
  let first := match lineno t loc with Some n => n | None => 0 end in
  match (if is_empty loc then Some first else end_loop (length ss) ss (end_ loc) first) with
  | None => None
  | Some last =>
      let no := if first =? last then show_dec (Z.of_nat (first + 1)) else show_dec (Z.of_nat (first + 1)) ++ Scan.text " - " ++ show_dec (Z.of_nat (last + 1)) in
      let w := length (show_dec (Z.of_nat (last + 2))) in
      let shown := firstn (last + 1 - first) (skipn first ls) in
      if (length shown <? last + 1 - first) then None
      else
        let rows := flat_map (fun p => padded w (fst p + 1) ++ Scan.text " |" ++ (match snd p with [] => [] | l => 32%Z :: l end) ++ [10%Z]) (combine (seq first (last + 1 - first)) shown) in
        match (if is_empty loc then match nth_error ls last with Some l => Some (byte_len l + 1, byte_len l + 3) | None => None end
               else match nth_error ss first, nth_error ss last with
                    | Some a, Some b => if (start loc <? a) || (end_ loc <? b) then None else Some (start loc - a, end_ loc - b)
                    | _, _ => None
                    end) with
        | None => None
        | Some (c0, c1) =>
            let marks :=
              if first =? last then
                match nth_error ls first with
                | Some [] | None => []
                | Some l => 32%Z :: map (fun c => if (c =? 9)%Z then 9%Z else 32%Z) (firstn c0 l)
                end ++ repeated 94 (count_to c0 c1)
              else let m := fold_left Nat.max (map byte_len shown) 0 in if 0 <? m then 32%Z :: repeated 94 m else [] in
            Some (error ++ Scan.text "
  at: line " ++ no ++ Scan.text " (" ++ name ++ Scan.text ")
" ++ trace ++ [10%Z] ++ rows ++ padded w (last + 2) ++ Scan.text " |" ++ marks ++ [10%Z])
        end
  end.

(** ** Stack traces *)
(** vm/mod.rs:143-150, the part that is used *)
Definition frame := nat.    (* return_ip *)
(** a frame of the report: the ip of the call, and the ip inside of the function that was called (from which its name is found); or repeats *)
Inductive line := Simple (call_ip inner_ip : nat) | Repeat (n : nat).
Definition REPEAT_LIMIT := 3.
(** vm/error.rs:103-139; the state of the loop *)
Record trace_state := St { out : list line; prev_ip : nat; prev_frame : option (nat * nat); prev_count : nat }.
Definition same_pair (a : option (nat * nat)) (b : nat * nat) : bool := match a with Some (x, y) => (x =? fst b) && (y =? snd b) | None => false end.
Definition trace_step (s : trace_state) (return_ip : frame) : trace_state :=
  if 0 <? return_ip then
    let frame_ip := return_ip - 1 in
    let same := same_pair (prev_frame s) (frame_ip, prev_ip s) in
    let out1 := if same then out s else if REPEAT_LIMIT <? prev_count s then out s ++ [Repeat (prev_count s - REPEAT_LIMIT)] else out s in
    let count := if same then prev_count s + 1 else 0 in
    let out2 := if count <=? REPEAT_LIMIT then out1 ++ [Simple frame_ip (prev_ip s)] else out1 in
    St out2 frame_ip (Some (frame_ip, prev_ip s)) count
  else s.
Definition stack_trace (ip : nat) (call_stack : list frame) : list line :=
  let s := fold_left trace_step (rev call_stack) (St [] ip None 0) in
  if REPEAT_LIMIT <? prev_count s then out s ++ [Repeat (prev_count s - REPEAT_LIMIT)] else out s.

(** func.rs:94-96, vm/error.rs:182-194: the first function among the constants whose code contains the ip; [None] is `<script>` *)
Definition contains_ip (f : nat * nat) (ip : nat) : bool := (fst f <=? ip) && (ip <=? snd f).
Fixpoint find_owning (ip i : nat) (fs : list (nat * nat)) : option nat :=
  match fs with [] => None | f :: r => if contains_ip f ip then Some i else find_owning ip (S i) r end.
(** parser/mod.rs:242-255: the code of the functions, one after the other after the code of the script; head and tail *)
Fixpoint emit_functions (pos : nat) (lens : list nat) : list (nat * nat) :=
  match lens with [] => [] | n :: r => (pos, pos + n - 1) :: emit_functions (pos + n) r end.
