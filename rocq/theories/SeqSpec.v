(** Specification vocabulary for P_Seq.v *)
From Verif Require Import Base Value IterSpec.
Local Open Scope Z_scope.

(** the element a user means by s[i]: counted from the end if negative *)
Definition element {A} (l : list A) (i : Z) : option A :=
  let n := Z.of_nat (length l) in
  if (0 <=? i) && (i <? n) then nth_error l (Z.to_nat i)
  else if (- n <=? i) && (i <? 0) then nth_error l (Z.to_nat (n + i))
  else None.

(** an optional slice bound: [None] (nil) means the natural end *)
Definition bound (n : Z) (o : option Z) (default : Z) : Z :=
  match o with None => default | Some i => if i <? 0 then n + i else i end.

(** the elements at the positions [idx] that exist *)
Definition pick {A} (l : list A) (i : Z) : list A :=
  if i <? 0 then [] else match nth_error l (Z.to_nat i) with Some x => [x] | None => [] end.
Definition select {A} (l : list A) (idx : list Z) : list A := flat_map (pick l) idx.

(** [out] is l[lo:hi:step] *)
Definition is_slice {A} (l : list A) (lo hi : option Z) (step : Z) (out : list A) : Prop :=
  let n := Z.of_nat (length l) in
  exists idx,
    progression (bound n lo (if step >? 0 then 0 else n - 1)) (bound n hi (if step >? 0 then n else -1)) step idx /\
    out = select l idx.

Definition opt_int (o : option Z) : value := match o with Some i => VInt i | None => VNil end.
Definition opt_int63 (o : option Z) : Prop := match o with Some i => is_int63 i | None => True end.

Definition ascii (s : list Z) : Prop := Forall (fun c => 0 <= c < 128) s.
