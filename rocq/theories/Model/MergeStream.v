(** The k-way merge of layer streams: src/query/stream/merge.rs.  Definitions only.

    Simplification: a stream is the list of the entries it will yield; polling
    errors are not modelled here (a failing stream fails the scan). *)
From Coq Require Import List NArith Bool.
From Verif Require Import Base.Order.
Import ListNotations.

Section Merge.
  Context {K : Type} {KO : KeyOrd K} {R : Type}.

  (** One source: its [SourcePriority] (src/query/stream/mod.rs:46-56: Txn 0, Mutable 1,
      Immutable 2, Sstable 3) and its remaining entries. *)
  Definition source := (nat * list ((K * N) * option R))%type.

  (** A heap entry: (stream index, priority, entry). *)
  Definition hentry := (nat * nat * ((K * N) * option R))%type.

  (** [HeapEntry::cmp] (src/query/stream/merge.rs:150-166) without its reversal: [Lt]
      means "is popped first". *)
  Definition heap_cmp (a b : hentry) : comparison :=
    let '(i, p, ((k, t), _)) := a in
    let '(j, q, ((l, u), _)) := b in
    match kcmp k l with
    | Eq => match N.compare u t with
            | Eq => match Nat.compare p q with
                    | Eq => Nat.compare i j
                    | c => c
                    end
            | c => c
            end
    | c => c
    end.

  (** The heap holds the head of every non-empty stream; its minimum
      ([BinaryHeap::peek] on the reversed order). *)
  Fixpoint heap_min (i : nat) (l : list source) : option hentry :=
    match l with
    | [] => None
    | (p, es) :: r =>
        match es, heap_min (S i) r with
        | [], m => m
        | e :: _, None => Some (i, p, e)
        | e :: _, Some m => match heap_cmp (i, p, e) m with
                            | Gt => Some m
                            | _ => Some (i, p, e)
                            end
        end
    end.

  (** Advance stream [i] (src/query/stream/merge.rs:80-98). *)
  Fixpoint advance (i : nat) (l : list source) : list source :=
    match l with
    | [] => []
    | (p, es) :: r =>
        match i with
        | O => (p, tl es) :: r
        | S i' => (p, es) :: advance i' r
        end
    end.

  (** [decrement_limit]: src/query/stream/merge.rs:182-186 *)
  Definition decrement_limit (l : option nat) : option nat :=
    match l with Some n => Some (pred n) | None => None end.

  (** [MergeStream::poll_next] driven to the end: src/query/stream/merge.rs:70-124.
      [buf] is the buffered entry of the current key.  [None]: out of fuel. *)
  Fixpoint merge_run (fuel : nat) (limit : option nat) (buf : option ((K * N) * option R))
           (srcs : list source) : option (list ((K * N) * R)) :=
    match limit with
    | Some O => Some []
    | _ =>
        match heap_min 0 srcs with
        | None => match buf with
                  | Some (kt, Some r) => Some [(kt, r)]
                  | _ => Some []
                  end
        | Some (i, _, e) =>
            match fuel with
            | O => None
            | S fuel =>
                let srcs' := advance i srcs in
                match buf with
                | None => merge_run fuel limit (Some e) srcs'
                | Some (bk, bv) =>
                    if keqb (fst bk) (fst (fst e)) then merge_run fuel limit buf srcs'
                    else match bv with
                         | None => merge_run fuel limit (Some e) srcs'
                         | Some r =>
                             match merge_run fuel (decrement_limit limit) (Some e) srcs' with
                             | Some out => Some ((bk, r) :: out)
                             | None => None
                             end
                         end
                end
            end
        end
    end.

  (** [MergeStream::from_vec] (src/query/stream/merge.rs:36-61) and driving it. *)
  Definition merge_streams (limit : option nat) (srcs : list source) : option (list ((K * N) * R)) :=
    merge_run (length (concat (map snd srcs))) limit None srcs.
End Merge.
