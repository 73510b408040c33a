(** The size of a key as the memtable counts it: src/key/row.rs:190-196, 299-315,
    src/key/heap_size.rs:41-57, 80, 84-88.  Definitions only. *)
From Coq Require Import List NArith Bool.
From Verif Require Import Model.Utf8 Model.Key.
Import ListNotations.
Local Open Scope N_scope.

(** [dyn_cell_heap_size], [dyn_cell_owned_heap_size]: src/key/row.rs:299-315,
    src/key/heap_size.rs:52-82: the bytes of strings and binaries, nothing for other cells.
    Structs, lists, maps and unions are left out (see [cell]). *)
Definition cell_heap_size (c : cell) : N :=
  match c with
  | CStr s => N.of_nat (length (utf8 s))
  | CBin b => N.of_nat (length b)
  | _ => 0
  end.
(** [dyn_row_heap_size], [KeyOwned::key_heap_size]: src/key/row.rs:190-196, src/key/heap_size.rs:41-50 *)
Definition key_heap_size (k : key) : N := fold_right (fun c n => cell_heap_size c + n) 0 k.
