(** * The routing filter

    /repo/src/routing_filter.c: RadixSort (50-122), the bucket encoding (212-299),
    routing_filter_add (325-640) and routing_filter_lookup (828-908), and the
    iteration over the found values (routing_filter.h:108-125).

    uint32 values are [N]; 32-bit shifts to the left are [shl32].  [None] is a
    failed assertion, undefined behaviour (a shift by too much, clz of 0) or an
    access outside a buffer or page.

    Simplifications: arrays in scratch memory are lists; a filter is the list of
    its blocks (header and packed remainders) by index number, each with the page
    and offset at which it was placed; the index pages that hold those addresses
    are the list itself.  A block's remainders are addressed as 32-bit words from
    the start of the packed array, and the memory behind a header's encoding is
    the packed array, as in the page.  Allocation (mini_alloc, and the failure of
    the scratch allocation), caching and page reference counts are not modelled.
    The async lookup (996-1162) does the same computation between page loads.
    Definitions only; no proofs. *)

From Coq Require Import List NArith Bool.
From Verif Require Import PackedArr.
Import ListNotations.
Local Open Scope N_scope.

(** routing_config, routing_filter.h:32-41, with the page size *)
Record fcfg := FCfg {
  fc_fs : N;         (* fingerprint_size *)
  fc_index : N;      (* index_size *)
  fc_log_index : N;  (* log_index_size *)
  fc_page : N        (* page size *)
}.

(** A header and its remainders: num_remainders, the bits of memory from
    hdr->encoding on, the words from the packed array on; page and offset. *)
Record fblock := FBlock {
  fb_num : N;
  fb_enc : N -> bool;
  fb_rem : words;
  fb_pageno : N;
  fb_off : N
}.

(** routing_filter, routing_filter.h:49-55; [addr == 0] is [None] *)
Record filter := Filter {
  rf_num : N;      (* num_fingerprints *)
  rf_unique : N;   (* num_unique *)
  rf_vs : N;       (* value_size *)
  rf_blocks : list fblock
}.

Definition opt_bind {A B} (x : option A) (f : A -> option B) : option B :=
  match x with Some a => f a | None => None end.
Notation "'let?' x ':=' e 'in' k" := (opt_bind e (fun x => k)) (at level 200, x pattern, e at level 200, k at level 200).
Definition guard {A} (b : bool) (k : option A) : option A := if b then k else None.

(** ** RadixSort, routing_filter.c:50-122 *)

Definition byte_of (u j : N) : N := N.shiftr u (8 * j) mod 256.

(** 78-85: the histogram of one byte position *)
Definition histogram (l : list N) (j : N) (c : N) : N :=
  N.of_nat (length (List.filter (fun u => byte_of u j =? c) l)).

(** 87-95: the sums of the histogram below each byte value *)
Fixpoint sum_below (h : N -> N) (c : nat) : N :=
  match c with O => 0 | S c' => sum_below h c' + h (N.of_nat c') end.

Record rpass := RPass { rp_idx : N -> N; rp_dst : N -> N }.

(** 100-116: one round; the assertion of line 103 is [None] *)
Fixpoint radix_pass (count j : N) (s : rpass) (l : list N) : option rpass :=
  match l with
  | [] => Some s
  | u :: r =>
      let c := byte_of u j in
      let i := rp_idx s c in
      guard (i <? count)
        (radix_pass count j
           (RPass (fun c' => if c' =? c then i + 1 else rp_idx s c')
                  (fun i' => if i' =? i then u else rp_dst s i')) r)
  end.

(** The array [dst] read back as a list of [count] items *)
Definition to_list (dst : N -> N) (count : nat) : list N := map (fun i => dst (N.of_nat i)) (seq 0 count).

(** 97-121: the rounds, from byte [j + fpshift]; the matrix was computed from the
    unsorted data [l0] *)
Fixpoint radix_rounds (l0 : list N) (fpshift : N) (j : N) (n : nat) (src : list N) : option (list N) :=
  match n with
  | O => Some src
  | S n' =>
      let h c := histogram (map (fun u => N.shiftr u (8 * fpshift)) l0) j c in
      let? s := radix_pass (N.of_nat (length l0)) (j + fpshift)
                  (RPass (fun c => sum_below h (N.to_nat c)) (fun _ => 0)) src in
      radix_rounds l0 fpshift (j + 1) n' (to_list (rp_dst s) (length l0))
  end.

(** 60-70; more than MATRIX_ROWS = 4 rounds, or a byte beyond the fourth, is out
    of range. *)
Definition radix_sort (data : list N) (fp_size value_size : N) : option (list N) :=
  let fpover := value_size mod 8 in
  let fp_size := if fp_size =? 0 then 1 else fp_size in
  let rounds := (fp_size + fpover - 1) / 8 + 1 in
  let fpshift := value_size / 8 in
  guard (rounds + fpshift <=? 4)
    (radix_rounds data fpshift 0 (N.to_nat rounds) data).

(** ** The bucket encoding *)

(** A word of [n] bits at bit [base] *)
Fixpoint word_at (f : N -> bool) (base : N) (n : nat) : N :=
  match n with
  | O => 0
  | S n' => (if f base then 1 else 0) + 2 * word_at f (base + 1) n'
  end.

(** __builtin_popcount and __builtin_ffs - 1 (undefined on 0) *)
Fixpoint popcount_from (x k : N) (n : nat) : N :=
  match n with O => 0 | S n' => (if N.testbit x k then 1 else 0) + popcount_from x (k + 1) n' end.
Definition popcount32 (x : N) : N := popcount_from x 0 32.
Fixpoint lowest_from (x k : N) (n : nat) : option N :=
  match n with O => None | S n' => if N.testbit x k then Some k else lowest_from x (k + 1) n' end.
Definition ffs1 (x : N) : option N := lowest_from x 0 64.
(** [x &= x - 1] *)
Definition clear_lowest (x : N) : N := N.land x (x - 1).

(** 237-240, 262-265: skip zero words *)
Fixpoint skip_zero (enc : N -> bool) (fuel : nat) (word ew : N) : option (N * N) :=
  match fuel with
  | O => None
  | S f => if ew =? 0 then skip_zero enc f (word + 1) (word_at enc (32 * (word + 1)) 32) else Some (word, ew)
  end.

(** 246-251: the word that holds the end of the bucket before *)
Fixpoint find_word (enc : N -> bool) (len bo : N) (fuel : nat) (word bucket pop : N) : option (N * N) :=
  match fuel with
  | O => None
  | S f =>
      if (4 * word <? len) && (bucket + pop <? bo)
      then find_word enc len bo f (word + 1) (bucket + pop) (popcount32 (word_at enc (32 * (word + 1)) 32))
      else Some (word, bucket)
  end.

(** 254-257 *)
Fixpoint clear_n (n : nat) (ew : N) : N :=
  match n with O => ew | S n' => clear_n n' (clear_lowest ew) end.

(** 220-268, routing_get_bucket_bounds *)
Definition bucket_bounds (enc : N -> bool) (len bo : N) (fuel : nat) : option (N * N) :=
  if bo =? 0 then
    let? (word, ew) := skip_zero enc fuel 0 (word_at enc 0 32) in
    let? bit := ffs1 ew in
    Some (0, 32 * word + bit)
  else
    let? (word, bucket) := find_word enc len bo fuel 0 0 (popcount32 (word_at enc 0 32)) in
    let ew := clear_n (N.to_nat (bo - 1 - bucket)) (word_at enc (32 * word) 32) in
    let? bit := ffs1 ew in
    let start := 32 * word + bit + 1 - bo in
    let? (word', ew') := skip_zero enc fuel word (clear_lowest ew) in
    let? bit' := ffs1 ew' in
    Some (start, 32 * word' + bit' - bo).

(** 282-289, one bucket of routing_get_bucket_counts *)
Fixpoint count_one (enc : N -> bool) (fuel : nat) (cursor word start acc : N) : option (N * N * N * N) :=
  match fuel with
  | O => None
  | S f =>
      if word =? 0
      then count_one enc f (cursor + 1) (word_at enc (64 * (cursor + 1)) 64) 0 (acc + (64 - start))
      else
        let? e := ffs1 word in
        Some (cursor, clear_lowest word, e + 1, acc + (e - start))
  end.

(** 271-294, routing_get_bucket_counts *)
Fixpoint bucket_counts_from (enc : N -> bool) (fuel n : nat) (cursor word start : N) : option (list N) :=
  match n with
  | O => Some []
  | S n' =>
      let? (p, cnt) := count_one enc fuel cursor word start 0 in
      let '(cursor', word', start') := p in
      let? r := bucket_counts_from enc fuel n' cursor' word' start' in
      Some (cnt :: r)
  end.

Definition bucket_counts (cfg : fcfg) (enc : N -> bool) (fuel : nat) : option (list N) :=
  bucket_counts_from enc fuel (N.to_nat (fc_index cfg)) 0 (word_at enc 0 64) 0.

(** The loops above end at the last bucket's end; this many words hold it. *)
Definition enc_fuel (cfg : fcfg) (num : N) : nat := N.to_nat ((num + fc_index cfg) / 32 + 2).

(** 195-202, routing_header_length: 2 bytes of num_remainders and the encoding *)
Definition encoding_size (cfg : fcfg) (num : N) : N := (num + fc_index cfg - 1) / 8 + 4.
Definition header_length (cfg : fcfg) (num : N) : N := encoding_size cfg num + 2.

(** ** routing_filter_add *)

(** 31 - __builtin_clz(x), undefined on 0 *)
Definition log2_32 (x : N) : option N := if (0 <? x) && (x <? two32) then Some (N.log2 x) else None.

(** 342-345 and 360-363 *)
Definition log_buckets (cfg : fcfg) (num : N) : option N :=
  let? l := log2_32 num in
  Some (if l <? fc_log_index cfg then fc_log_index cfg else l).

Definition sizes_of (cfg : fcfg) (num : N) : option (N * N * N) :=
  let? lnb := log_buckets cfg num in
  guard ((fc_log_index cfg <=? lnb) && (lnb <=? fc_fs cfg))
    (Some (lnb, lnb - fc_log_index cfg, fc_fs cfg - lnb)).

(** 446-450 *)
Definition shape (cfg : fcfg) (vs value h : N) : N :=
  N.lor (shl32 (N.shiftr h (32 - fc_fs cfg)) vs) value.

(** 455-466: keep one of equal neighbours *)
Fixpoint dedup (last : option N) (l : list N) : list N :=
  match l with
  | [] => []
  | x :: r =>
      if (match last with Some y => x =? y | None => false end) then dedup last r
      else x :: dedup (Some x) r
  end.

(** 150-156, routing_get_index *)
Definition get_index (fp sh : N) : N := if sh =? 32 then 0 else N.shiftr fp sh.

(** 468-478: how many fingerprints at the front belong to index [i] *)
Fixpoint count_index (sh i : N) (l : list N) : nat :=
  match l with
  | [] => O
  | x :: r => if get_index x sh =? i then S (count_index sh i r) else O
  end.

(** 468-478: the counts for [n] indices from [i]; returns what is left *)
Fixpoint index_counts (sh i : N) (n : nat) (l : list N) : list nat * list N :=
  match n with
  | O => ([], l)
  | S n' =>
      let k := count_index sh i l in
      let (ks, r) := index_counts sh (i + 1) n' (skipn k l) in
      (k :: ks, r)
  end.

(** 509-516: put the bucket numbers back in front of the remainders *)
Fixpoint add_bucket (rv bucket : N) (n : nat) (l : list N) : list N * list N :=
  match n, l with
  | S n', x :: r =>
      let (a, b) := add_bucket rv bucket n' r in (N.lor x (shl32 bucket rv) :: a, b)
  | _, _ => ([], l)
  end.

Fixpoint add_buckets (rv bucket : N) (counts : list N) (l : list N) : list N :=
  match counts with
  | [] => l
  | c :: r =>
      let (a, b) := add_bucket rv bucket (N.to_nat c) l in a ++ add_buckets rv (bucket + 1) r b
  end.

(** 522-528: widen the value field *)
Definition reshape (ovs vs x : N) : N :=
  let v := N.land x (mask32 ovs) in N.lor (shl32 (x - v) (vs - ovs)) v.

(** 484-530: the fingerprints under index [i] of the old filter *)
Definition old_fps (cfg : fcfg) (old : option filter) (orem : N) (i vs : N) : option (list N) :=
  match old with
  | None => Some []
  | Some f =>
      let? b := nth_error (rf_blocks f) (N.to_nat i) in
      let? counts := bucket_counts cfg (fb_enc b) (enc_fuel cfg (fb_num b)) in
      if fb_num b =? 0 then Some []
      else
        guard (fb_num b <=? 4096)
        (let rv := rf_vs f + orem in
         let? l := pa_unpack rv (fb_rem b) 0 (N.to_nat (fb_num b)) in
         let l := add_buckets rv (i * fc_index cfg) counts l in
         if rf_vs f =? vs then Some l
         else guard (rf_vs f <? vs) (Some (map (reshape (rf_vs f) vs) l)))
  end.

(** The state of the merge of one index: header_bit, last_bucket, the encoding
    buffer, the remainders so far (last first), last_fp_added, num_unique. *)
Record mst := MSt {
  m_hbit : N; m_last : N; m_enc : N -> bool; m_dst : list N; m_lastfp : N; m_uniq : N
}.

(** 541-581: the merge of one index.  The encoding buffer has
    ROUTING_FPS_PER_PAGE / 32 words of 32 bits, the fingerprint buffer
    ROUTING_FPS_PER_PAGE items; a new fingerprint beyond the index would have to
    be put back (debug assertion of line 570). *)
Fixpoint merge_index (vs rv endb : N) (fuel : nat) (s : mst) (olds news : list N) : option (mst * list N) :=
  match fuel with
  | O => None
  | S f =>
      let take (is_old : bool) (fp : N) (olds' news' : list N) :=
        let uniq := if N.shiftr (m_lastfp s) vs =? N.shiftr fp vs then m_uniq s else m_uniq s + 1 in
        let bucket := N.shiftr fp rv in
        if endb <=? bucket
        then guard is_old (Some (MSt (m_hbit s) (m_last s) (m_enc s) (m_dst s) (m_lastfp s) uniq, olds))
        else
          let hbit := m_hbit s + (bucket + two32 - m_last s) mod two32 in
          guard ((hbit <? 4096) && (N.of_nat (length (m_dst s)) <? 4096))
            (merge_index vs rv endb f
               (MSt (hbit + 1) bucket (fun n => if n =? hbit then false else m_enc s n)
                    (N.land fp (mask32 rv) :: m_dst s) fp uniq) olds' news')
      in
      match olds, news with
      | [], [] => Some (s, [])
      | o :: olds', [] => take true o olds' []
      | [], n :: news' => take false n [] news'
      | o :: olds', n :: news' => if o <=? n then take true o olds' news else take false n olds news'
      end
  end.

(** 583-584, a uint32; with no remainders the 64-bit subtraction wraps *)
Definition remainder_block_size (n rv : N) : N :=
  (((n * rv + (2 ^ 64 - 1)) mod 2 ^ 64) / 8 + 4) mod two32.

(** The place in the filter's pages: page number and cursor *)
Record place := Place { pl_page : N; pl_off : N }.

(** 583-625: write the block of one index.  A block bigger than a page would
    run over its end (debug assertion of 620). *)
Definition write_block (cfg : fcfg) (rv : N) (mem : words) (enc : N -> bool) (fps : list N) (p : place)
  : option (fblock * place * (N -> bool)) :=
  let n := N.of_nat (length fps) in
  let rsz := remainder_block_size n rv in
  let esz := encoding_size cfg n in
  let hsz := esz + 2 in
  let p' := if fc_page cfg - pl_off p <? hsz + rsz then Place (pl_page p + 1) 0 else p in
  guard ((hsz + rsz <=? fc_page cfg) && (esz <=? 512))
  (let? rem := (match fps with [] => Some mem | _ => pa_pack rv mem 0 fps end) in
   Some (FBlock n (fun k => if k <? 8 * esz then enc k else bit_of rem (k - 8 * esz)) rem (pl_page p') (pl_off p'),
         Place (pl_page p') (pl_off p' + hsz + rsz),
         fun k => if k <? 8 * esz then true else enc k)).

Record ast := ASt {
  a_blocks : list fblock;   (* last first *)
  a_enc : N -> bool;        (* encoding_buffer *)
  a_place : place;
  a_news : list N;          (* fp_arr from fp_no *)
  a_uniq : N
}.

(** 531-626: the new indices [i], [i+1], ... under one old index, given how many
    new fingerprints belong to each *)
Fixpoint add_indices (cfg : fcfg) (vs rv : N) (mem : N -> words) (i : N) (counts : list nat)
  (olds : list N) (s : ast) : option ast :=
  match counts with
  | [] => Some s
  | k :: r =>
      let news := firstn k (a_news s) in
      let? (m, olds') := merge_index vs rv ((i + 1) * fc_index cfg) (S (length olds + length news))
                           (MSt 0 (i * fc_index cfg) (a_enc s) [] (two32 - 1) (a_uniq s)) olds news in
      let? (w, enc') := write_block cfg rv (mem i) (m_enc m) (rev (m_dst m)) (a_place s) in
      let (b, p') := w in
      guard (i / (fc_page cfg / 8) <? 32)
        (add_indices cfg vs rv mem (i + 1) r olds'
           (ASt (b :: a_blocks s) enc' p' (skipn k (a_news s)) (m_uniq m)))
  end.

(** 481-630: the old indices *)
Fixpoint add_old_indices (cfg : fcfg) (old : option filter) (orem vs rv : N) (mem : N -> words)
  (per : nat) (oi : N) (n : nat) (counts : list nat) (s : ast) : option ast :=
  match n with
  | O => Some s
  | S n' =>
      let? olds := old_fps cfg old orem oi vs in
      let? s' := add_indices cfg vs rv mem (oi * N.of_nat per) (firstn per counts) olds s in
      add_old_indices cfg old orem vs rv mem per (oi + 1) n' (skipn per counts) s'
  end.

(** value_size of a value, 369 *)
Definition value_size (value : N) : N := if value =? 0 then 0 else N.log2 value + 1.

(** 325-640, routing_filter_add.  [mem i] is what the page held where the packed
    array of index [i] is put. *)
Definition filter_add (cfg : fcfg) (mem : N -> words) (old : option filter) (hashes : list N) (value : N)
  : option filter :=
  let? osz := (match old with
               | None => Some (0, 0, 0)
               | Some f => guard (fc_fs cfg + rf_vs f <=? 32) (sizes_of cfg (rf_num f))
               end) in
  let '(_, olni, orem) := osz in
  let num := N.of_nat (length hashes) + (match old with None => 0 | Some f => rf_num f end) in
  let? sz := sizes_of cfg num in
  let '(lnb, lni, rem) := sz in
  let vs := value_size value in
  guard (fc_fs cfg + vs <=? 32)
  (let rv := vs + rem in
   let? fps := radix_sort (map (shape cfg vs value) hashes) (fc_fs cfg) vs in
   let fps := dedup None fps in
   let (counts, _) := index_counts (rv + fc_log_index cfg) 0 (N.to_nat (2 ^ lni)) fps in
   let per := N.to_nat (2 ^ lni / 2 ^ olni) in
   let? s := add_old_indices cfg old orem vs rv mem per 0 (N.to_nat (2 ^ olni)) counts
               (ASt [] (fun _ => true) (Place 0 0) fps 0) in
   Some (Filter num (a_uniq s) vs (rev (a_blocks s)))).

(** ** routing_filter_lookup, 828-908, for the hash of the key *)

(** 886-903: the remainders of the bucket, last first; line 900 asserts *)
Fixpoint scan_bucket (vs rv remainder : N) (rem : words) (n : nat) (pos : N) (found : N) : option N :=
  match n with
  | O => Some found
  | S n' =>
      let x := pa_get rv rem (pos - 1) in
      if N.shiftr x vs =? remainder then
        let v := N.land x (mask32 vs) in
        guard (v <? 64) (scan_bucket vs rv remainder rem n' (pos - 1) (N.lor found (2 ^ v)))
      else scan_bucket vs rv remainder rem n' (pos - 1) found
  end.

Definition filter_lookup (cfg : fcfg) (f : option filter) (h : N) : option N :=
  match f with
  | None => Some 0
  | Some f =>
      let fp := N.shiftr h (32 - fc_fs cfg) in
      let vs := rf_vs f in
      let? sz := sizes_of cfg (rf_num f) in
      let '(lnb, _, rem) := sz in
      let rv := rem + vs in
      let bucket := N.shiftr (shl32 fp vs) rv in
      let bucket_off := bucket mod fc_index cfg in
      let index := get_index (shl32 fp vs) (rem + vs + fc_log_index cfg) in
      let remainder := N.land fp (mask32 rem) in
      let? b := nth_error (rf_blocks f) (N.to_nat index) in
      let? (start, end_) := bucket_bounds (fb_enc b) (header_length cfg (fb_num b)) bucket_off (enc_fuel cfg (fb_num b)) in
      if start =? end_ then Some 0
      else scan_bucket vs rv remainder (fb_rem b) (N.to_nat (end_ - start)) end_ 0
  end.

(** ** The values found, routing_filter.h:108-125.  [1 << last_value] is an int:
    31 and above are undefined.  [None] in the result is ROUTING_NOT_FOUND; the
    outer [None] is undefined behaviour. *)
Definition next_value (found : N) (last : option N) : option (option N) :=
  let? found :=
    (match last with
     | None => Some found
     | Some l => guard (l <? 31) (Some (N.land found (2 ^ l - 1)))
     end) in
  Some (if found =? 0 then None else Some (N.log2 found)).

Definition is_value_found (found value : N) : option bool :=
  guard (value <? 31) (Some (negb (N.land found (2 ^ value) =? 0))).

(** The caller's loop over the values (trunk.c:6804-6826), at most [n] of them *)
Fixpoint found_values (found : N) (last : option N) (n : nat) : option (list N) :=
  match n with
  | O => Some []
  | S n' =>
      let? nv := next_value found last in
      match nv with
      | None => Some []
      | Some v => let? r := found_values found (Some v) n' in Some (v :: r)
      end
  end.
