(** C69: what is read through the caches of bloom filters and file metadata is what the files
    hold.

    Files, requests, the decoder and the sizes of the caches are arbitrary; so is the schedule
    of the calls that share a cache. *)
From Coq Require Import List NArith Bool.
From Verif Require Import Model.Caches Spec.CacheSpec Proof.CacheFacts Proof.CacheWit.
Import ListNotations.
Local Open Scope N_scope.

(** Several ranges read at once: the bytes of each range, in the order asked, whatever ranges
    are joined into one read; an error exactly if some range reaches beyond the file.  No run
    panics. *)
Theorem C69_ranges :
  forall gap file rs, Forall (fun r => fst r <= snd r) rs ->
    (Forall (fun r => snd r <= N.of_nat (length file)) rs ->
     exists ws, get_byte_ranges gap file rs = ROk ws /\ Forall2 (fun r w => part file (fst r) (snd r) w) rs ws) /\
    (Exists (fun r => N.of_nat (length file) < snd r) rs -> get_byte_ranges gap file rs = RFail).
Proof. exact ranges_spec. Qed.
Print Assumptions C69_ranges.
Example C69_ranges_applies :
  get_byte_ranges 1 [1; 2; 3; 4; 5; 6; 7; 8] [(5, 8); (0, 4); (1, 2); (6, 6)] = ROk [[6; 7; 8]; [1; 2; 3; 4]; [2]; []] /\
  get_byte_ranges 1 [1; 2; 3] [(0, 1); (2, 4)] = RFail.
Proof. split; vm_compute; reflexivity. Qed.

(** A cache: after any insertions it holds at most as many entries as it may, gives for a key
    only the value inserted last, and holds the entry inserted last.  The eviction loop always
    ends. *)
Theorem C69_cache :
  forall (K V : Type) (keqb : K -> K -> bool), (forall a b, keqb a b = true <-> a = b) ->
  forall (n : nat) (l : list (K * V)),
    exists c, fold_left (fun o p => match o with Some c => cache_insert keqb (fst p) (snd p) c | None => None end) l
                        (Some (cache_new n)) = Some c /\
      (length (c_map c) <= Nat.max n 1)%nat /\
      (forall k v, cache_get keqb k c = Some v -> exists l1 l2, l = l1 ++ (k, v) :: l2 /\ forall w, ~ In (k, w) l2) /\
      (forall l' k v, l = l' ++ [(k, v)] -> cache_get keqb k c = Some v).
Proof. exact cache_claim. Qed.
Print Assumptions C69_cache.
Example C69_cache_applies : (forall a b, N.eqb a b = true <-> a = b) /\
  option_map (c_map (V := N)) (fold_left (fun o p => match o with Some c => cache_insert N.eqb (fst p) (snd p) c | None => None end)
    [(1, 10); (2, 20); (1, 11); (3, 30)] (Some (cache_new 2))) = Some [(3, 30); (2, 20)].
Proof. split; [exact N.eqb_eq|vm_compute; reflexivity]. Qed.

(** Bloom filters: however the calls of any number of callers interleave, whichever of them are
    given up and whichever reads the storage fails, no call gets stuck, the cache keeps within
    its size, and every answer holds for a request only the filter stored in the file asked
    about.  A call whose read the storage did not fail answers every filter stored for its
    requests, provided the filters' ranges lie within the file. *)
Theorem C69_filters :
  forall (S Q F : Type) (seqb : S -> S -> bool) (qeqb : Q -> Q -> bool),
  (forall a b, seqb a b = true <-> a = b) -> (forall a b, qeqb a b = true <-> a = b) ->
  forall (decode : bytes -> option F) (contents : S -> bytes) (ranges : S -> Q -> option (N * N)),
  (forall f q s e, ranges f q = Some (s, e) -> s <= e) ->
  forall n es,
    exists s l, crun seqb qeqb ranges (fetch_filters decode contents) (cold n) es = Some (s, l) /\
      (length (c_map (sh_cache s)) <= Nat.max n 1)%nat /\
      forall a, In a l ->
        NoDup (map fst (an_values a)) /\
        (forall q v, has (an_values a) q v -> In q (an_requests a) /\ stored decode contents ranges (an_file a) q v) /\
        (an_fault a = false ->
         (forall q s e, In q (an_requests a) -> ranges (an_file a) q = Some (s, e) -> e <= N.of_nat (length (contents (an_file a)))) ->
         forall q v, In q (an_requests a) -> stored decode contents ranges (an_file a) q v -> has (an_values a) q v).
Proof. exact @filter_runs. Qed.
Print Assumptions C69_filters.
(** A cache of one entry, two callers at once, and a third whose read fails after it found one
    filter in the cache. *)
Example C69_filters_applies :
  (forall f q s e, demo_ranges f q = Some (s, e) -> s <= e) /\
  option_map snd (crun Bool.eqb Bool.eqb demo_ranges (fetch_filters demo_decode demo_contents) (cold 0) demo_run) =
  Some [mkAnswer 0 true [false; true] [(true, [2; 3]); (false, [5; 6])] false;
        mkAnswer 1 false [false; true] [(false, [7; 8])] false;
        mkAnswer 2 true [true; false] [(true, [2; 3])] true].
Proof. exact (conj demo_ranges_ok demo_answers). Qed.

(** File metadata: every answer is the metadata of the file asked about; a call whose read the
    storage did not fail answers it if the file has valid metadata. *)
Theorem C69_metadata :
  forall (S V : Type) (seqb : S -> S -> bool), (forall a b, seqb a b = true <-> a = b) ->
  forall (load : S -> option V) n es,
    exists s l, crun seqb (fun _ _ => true) (fun _ (_ : unit) => Some tt) (fetch_metadata load) (cold n) es = Some (s, l) /\
      (length (c_map (sh_cache s)) <= Nat.max n 1)%nat /\
      forall a, In a l ->
        (forall u v, In (u, v) (an_values a) -> load (an_file a) = Some v) /\
        (an_fault a = false -> forall v, an_requests a <> [] -> load (an_file a) = Some v -> In (tt, v) (an_values a)).
Proof. exact @metadata_runs. Qed.
Print Assumptions C69_metadata.
Example C69_metadata_applies :
  option_map snd (crun Nat.eqb (fun _ _ => true) (fun _ (_ : unit) => Some tt)
    (fetch_metadata (fun f => if Nat.ltb f 5 then Some (f * f)%nat else None)) (cold 1)
    [Begin 0 2%nat [tt]; Begin 1 3%nat [tt]; Step 0; Step 1; Step 0; Step 1; Step 0; Step 0; Step 1; Step 1; Step 0; Step 1;
     Begin 0 2%nat [tt]; Begin 1 7%nat [tt]; Step 1; Step 0; Step 0; Step 1; Step 1; Step 0; Step 0; Step 0]) =
  Some [mkAnswer 0 2%nat [tt] [(tt, 4%nat)] false; mkAnswer 1 3%nat [tt] [(tt, 9%nat)] false;
        mkAnswer 1 7%nat [tt] [] false; mkAnswer 0 2%nat [tt] [(tt, 4%nat)] false].
Proof. vm_compute. reflexivity. Qed.
