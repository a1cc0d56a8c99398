(** * Page allocator on top of extents

    /repo/src/mini_allocator.c:21-732, 765-786, 1002-1044.  Definitions only.

    Any number of threads call mini_alloc; one step is one access to shared
    memory or one page-lock operation.  Simplifications:
    - addresses are page numbers (address / page_size), extents are extent
      numbers (address / extent_size); [ppe] is the number of pages of an
      extent; the lock token MINI_WAIT (1, not a multiple of the page size) is
      [None];
    - the extent allocator is its array of reference counts; which free extent
      it returns is the scheduler's choice (its guarantees are C23);
    - the page lock of a metadata page is a list of readers, a claim bit and a
      write bit (the cache's own protocol is not part of this module);
    - a metadata page is its link, its fill position and its list of entries;
      unkeyed pages do not store the batch and the key of an entry, which the
      model keeps and ignores;
    - num_entries is a uint32 that counts entries of at least 8 bytes in one
      page and does not wrap. *)

From Coq Require Import List NArith Arith Bool.
From Verif Require Import Base Count.
Import ListNotations.

(** Sizes, and mini->keyed, mini->num_batches. *)
Record mcfg := Mcfg {
  m_ppe : nat;        (* extent_size / page_size *)
  m_ps : N;           (* page_size in bytes *)
  m_keyed : bool;
  m_nb : nat          (* num_batches *)
}.

(** :54-58 (keyed) and :69-71 (unkeyed); [None] is TERMINAL_EXTENT_ADDR (:43) *)
Record mentry := Ment { me_ext : option nat; me_batch : nat; me_key : key }.

(** :36-41, mini_meta_hdr; [mp_next] = 0 is the end of the list *)
Record mpage := Mpage { mp_next : nat; mp_pos : N; mp_entries : list mentry }.

(** :80-84 and :69-71: sizes of packed structures: 8 + 1 + 2 + 1 bytes and the
    key, or 8 bytes *)
Definition entry_size (c : mcfg) (e : mentry) : N :=
  if m_keyed c then (12 + key_length (me_key e))%N else 8%N.

(** :130-137, mini_init_meta_page; offsetof(entry_buffer) = 8 + 8 + 4 *)
Definition empty_page : mpage := Mpage 0 20 [].

(** :367-429, mini_keyed_append_entry and mini_unkeyed_append_entry; [None] is
    FALSE *)
Definition append_entry (c : mcfg) (p : mpage) (e : mentry) : option mpage :=
  if (mp_pos p + entry_size c e <=? m_ps c)%N
  then Some (Mpage (mp_next p) (mp_pos p + entry_size c e)%N (mp_entries p ++ [e]))
  else None.

(** :499-507, mini_set_next_meta_addr *)
Definition set_next (p : mpage) (n : nat) : mpage := Mpage n (mp_pos p) (mp_entries p).

(** Where a thread is inside mini_alloc(batch, key).  [e] is the extent taken,
    [mt] the value of meta_tail it read. *)
Inductive mpc :=
| MOut
| MRd (b : nat) (k : key)                       (* :452, :460: read next_addr *)
| MCas (b : nat) (k : key) (na : option nat)    (* :454-456 *)
| MExt (b : nat) (k : key)                      (* :592-598 *)
| MTail (b : nat) (k : key) (e : nat)           (* :165: read meta_tail *)
| MGet (b : nat) (k : key) (e mt : nat)         (* :166: cache_get *)
| MChk (b : nat) (k : key) (e mt : nat)         (* :167, first conjunct *)
| MClaim (b : nat) (k : key) (e mt : nat)       (* :167, second conjunct *)
| MUnget (b : nat) (k : key) (e mt : nat)       (* :171 *)
| MLock (b : nat) (k : key) (e mt : nat)        (* :175: cache_lock *)
| MApp (b : nat) (k : key) (e mt : nat)         (* :517-537 *)
| MApp2 (b : nat) (k : key) (e nt : nat)        (* :538-555 on the new page *)
| MFin (b na : nat).                            (* :604-609 *)

Record mst := Mst {
  ms_refs : nat -> N;                 (* rc_allocator's ref_count *)
  ms_pages : nat -> option mpage;     (* contents of metadata pages *)
  ms_rd : nat -> list nat;            (* page -> threads holding a reference *)
  ms_claim : nat -> bool;
  ms_wr : nat -> bool;
  ms_tail : nat;                      (* meta_tail *)
  ms_next_addr : nat -> option nat;   (* per batch *)
  ms_next_ext : nat -> nat;           (* per batch *)
  ms_num_ext : nat;                   (* num_extents *)
  ms_pcs : nat -> mpc;
  ms_ret : list nat                   (* ghost: pages returned so far, newest first *)
}.

Inductive mres := MBlocked | MAbort | MStep (s : mst).

Definition st_refs (s : mst) f := Mst f (ms_pages s) (ms_rd s) (ms_claim s) (ms_wr s) (ms_tail s)
  (ms_next_addr s) (ms_next_ext s) (ms_num_ext s) (ms_pcs s) (ms_ret s).
Definition st_pages (s : mst) f := Mst (ms_refs s) f (ms_rd s) (ms_claim s) (ms_wr s) (ms_tail s)
  (ms_next_addr s) (ms_next_ext s) (ms_num_ext s) (ms_pcs s) (ms_ret s).
Definition st_rd (s : mst) f := Mst (ms_refs s) (ms_pages s) f (ms_claim s) (ms_wr s) (ms_tail s)
  (ms_next_addr s) (ms_next_ext s) (ms_num_ext s) (ms_pcs s) (ms_ret s).
Definition st_claim (s : mst) f := Mst (ms_refs s) (ms_pages s) (ms_rd s) f (ms_wr s) (ms_tail s)
  (ms_next_addr s) (ms_next_ext s) (ms_num_ext s) (ms_pcs s) (ms_ret s).
Definition st_wr (s : mst) f := Mst (ms_refs s) (ms_pages s) (ms_rd s) (ms_claim s) f (ms_tail s)
  (ms_next_addr s) (ms_next_ext s) (ms_num_ext s) (ms_pcs s) (ms_ret s).
Definition st_tail (s : mst) f := Mst (ms_refs s) (ms_pages s) (ms_rd s) (ms_claim s) (ms_wr s) f
  (ms_next_addr s) (ms_next_ext s) (ms_num_ext s) (ms_pcs s) (ms_ret s).
Definition st_na (s : mst) f := Mst (ms_refs s) (ms_pages s) (ms_rd s) (ms_claim s) (ms_wr s) (ms_tail s)
  f (ms_next_ext s) (ms_num_ext s) (ms_pcs s) (ms_ret s).
Definition st_ne (s : mst) f := Mst (ms_refs s) (ms_pages s) (ms_rd s) (ms_claim s) (ms_wr s) (ms_tail s)
  (ms_next_addr s) f (ms_num_ext s) (ms_pcs s) (ms_ret s).
Definition st_num (s : mst) f := Mst (ms_refs s) (ms_pages s) (ms_rd s) (ms_claim s) (ms_wr s) (ms_tail s)
  (ms_next_addr s) (ms_next_ext s) f (ms_pcs s) (ms_ret s).
Definition st_pcs (s : mst) f := Mst (ms_refs s) (ms_pages s) (ms_rd s) (ms_claim s) (ms_wr s) (ms_tail s)
  (ms_next_addr s) (ms_next_ext s) (ms_num_ext s) f (ms_ret s).
Definition st_ret (s : mst) f := Mst (ms_refs s) (ms_pages s) (ms_rd s) (ms_claim s) (ms_wr s) (ms_tail s)
  (ms_next_addr s) (ms_next_ext s) (ms_num_ext s) (ms_pcs s) f.

Definition goto (s : mst) (t : nat) (p : mpc) : mst := st_pcs s (upd (ms_pcs s) t p).

(** rc_allocator.c:520-545; the result is the new count, [None] a failed
    assertion *)
Definition dec8 (refs : nat -> N) (e : nat) : option (N * (nat -> N)) :=
  let r := ((refs e + 255) mod 256)%N in
  if N.eqb r 255 then None else Some (r, upd refs e r).

(** rc_allocator.c:500-517 *)
Definition inc8 (refs : nat -> N) (e : nat) : option (N * (nat -> N)) :=
  let r := ((refs e + 1) mod 256)%N in
  if N.eqb r 1 || N.eqb r 0 then None else Some (r, upd refs e r).

(** What the environment decides: a call to mini_alloc; the extent that
    allocator_alloc returns ([None] is "no space"); nothing. *)
Inductive mchoice :=
| CCall (b : nat) (k : key)
| CExt (e : option nat)
| CGo.

(** :231-239, mini_allocator_get_new_extent.  The scheduler may only name an
    extent that is free. *)
Inductive xres := XBad | XNoSpace | XGot (e : nat) (s : mst).
Definition new_extent (s : mst) (ch : mchoice) : xres :=
  match ch with
  | CExt (Some e) =>
      if N.eqb (ms_refs s e) 0
      then XGot e (st_num (st_refs s (upd (ms_refs s) e 2%N)) (S (ms_num_ext s)))
      else XBad
  | CExt None => XNoSpace
  | _ => XBad
  end.

(** :180-187, mini_full_unlock_meta_page *)
Definition full_unlock (s : mst) (t p : nat) : mst :=
  st_rd (st_claim (st_wr s (upd (ms_wr s) p false)) (upd (ms_claim s) p false))
        (upd (ms_rd s) p (remove Nat.eq_dec t (ms_rd s p))).

(** cache_alloc: the page is returned referenced, claimed and write locked *)
Definition alloc_locked (s : mst) (t p : nat) : mst :=
  st_rd (st_claim (st_wr s (upd (ms_wr s) p true)) (upd (ms_claim s) p true)) (upd (ms_rd s) p [t]).

(** :524-532: the address of the next metadata page *)
Definition new_tail (c : mcfg) (s : mst) (mt : nat) (ch : mchoice) : xres :=
  if Nat.eqb ((mt + 1) mod m_ppe c) 0
  then match new_extent s ch with
       | XGot e s' => XGot (e * m_ppe c) s'
       | r => r
       end
  else match ch with CGo => XGot (mt + 1) s | _ => XBad end.

(** :533-538: link the new page, allocate it, move the tail, unlock the old
    page, initialise the new one *)
Definition after_spill (s : mst) (t mt nt : nat) (pg : mpage) : mst :=
  let s2 := st_pages s (upd (ms_pages s) mt (Some (set_next pg nt))) in
  let s3 := alloc_locked s2 t nt in
  let s4 := full_unlock (st_tail s3 nt) t mt in
  st_pages s4 (upd (ms_pages s4) nt (Some empty_page)).

Definition mini_step (c : mcfg) (s : mst) (t : nat) (ch : mchoice) : mres :=
  match ms_pcs s t with
  | MOut =>
      match ch with
      | CCall b k => if Nat.ltb b (m_nb c) then MStep (goto s t (MRd b k)) else MBlocked
      | _ => MBlocked
      end
  | MRd b k => MStep (goto s t (MCas b k (ms_next_addr s b)))
  | MCas b k na =>
      match na with
      | None => MStep (goto s t (MRd b k))
      | Some a =>
          match ms_next_addr s b with
          | Some a' =>
              if Nat.eqb a a'
              then MStep (goto (st_na s (upd (ms_next_addr s) b None)) t
                               (if Nat.eqb (a mod m_ppe c) 0 then MExt b k else MFin b a))
              else MStep (goto s t (MRd b k))
          | None => MStep (goto s t (MRd b k))
          end
      end
  | MExt b k =>
      let e := ms_next_ext s b in
      match new_extent s ch with
      | XBad => MBlocked
      | XNoSpace => MAbort
      | XGot e' s' => MStep (goto (st_ne s' (upd (ms_next_ext s') b e')) t (MTail b k e))
      end
  | MTail b k e => MStep (goto s t (MGet b k e (ms_tail s)))
  | MGet b k e mt =>
      if ms_wr s mt then MBlocked
      else MStep (goto (st_rd s (upd (ms_rd s) mt (t :: ms_rd s mt))) t (MChk b k e mt))
  | MChk b k e mt =>
      MStep (goto s t (if Nat.eqb mt (ms_tail s) then MClaim b k e mt else MUnget b k e mt))
  | MClaim b k e mt =>
      if ms_claim s mt then MStep (goto s t (MUnget b k e mt))
      else MStep (goto (st_claim s (upd (ms_claim s) mt true)) t (MLock b k e mt))
  | MUnget b k e mt =>
      MStep (goto (st_rd s (upd (ms_rd s) mt (remove Nat.eq_dec t (ms_rd s mt)))) t (MTail b k e))
  | MLock b k e mt =>
      if forallb (Nat.eqb t) (ms_rd s mt)
      then MStep (goto (st_wr s (upd (ms_wr s) mt true)) t (MApp b k e mt))
      else MBlocked
  | MApp b k e mt =>
      match ms_pages s mt with
      | None => MAbort
      | Some pg =>
          match append_entry c pg (Ment (Some e) b k) with
          | Some pg' =>
              MStep (goto (full_unlock (st_pages s (upd (ms_pages s) mt (Some pg'))) t mt) t
                          (MFin b (e * m_ppe c)))
          | None =>
              match new_tail c s (ms_tail s) ch with
              | XBad => MBlocked
              | XNoSpace => MAbort
              | XGot nt s1 =>
                  MStep (goto (after_spill s1 t mt nt pg) t (MApp2 b k e nt))
              end
          end
      end
  | MApp2 b k e nt =>
      match ms_pages s nt with
      | None => MAbort
      | Some pg =>
          (* :538-545; the result is only checked by a debug_assert *)
          let pg' := match append_entry c pg (Ment (Some e) b k) with Some p => p | None => pg end in
          MStep (goto (full_unlock (st_pages s (upd (ms_pages s) nt (Some pg'))) t nt) t
                      (MFin b (e * m_ppe c)))
      end
  | MFin b na =>
      MStep (st_ret (goto (st_na s (upd (ms_next_addr s) b (Some (na + 1)))) t MOut) (na :: ms_ret s))
  end.

(** The extents that the allocator of this module holds: those of its metadata
    pages, the recorded ones, the reserve of each batch and the one a thread is
    about to record. *)
Definition pend (p : mpc) : option nat :=
  match p with
  | MTail _ _ e | MGet _ _ e _ | MChk _ _ e _ | MClaim _ _ e _ | MUnget _ _ e _
  | MLock _ _ e _ | MApp _ _ e _ | MApp2 _ _ e _ => Some e
  | _ => None
  end.
Definition owned (c : mcfg) (s : mst) (x : nat) : Prop :=
  (exists p pg, ms_pages s p = Some pg /\
     (p / m_ppe c = x \/ exists en, In en (mp_entries pg) /\ me_ext en = Some x))
  \/ (exists b, b < m_nb c /\ ms_next_ext s b = x)
  \/ (exists t, pend (ms_pcs s t) = Some x).

(** Steps of the rest of the system: allocation of a free extent; changes to
    the counts of extents it holds (extent 0, the super block's, is never
    freed); taking and dropping external references to an unkeyed allocator
    (mini_unkeyed_inc_ref, mini_unkeyed_dec_ref) other than the creator's. *)
Inductive env_step (c : mcfg) (head : nat) (s : mst) : mst -> Prop :=
| ev_alloc x : ms_refs s x = 0%N -> env_step c head s (st_refs s (upd (ms_refs s) x 2%N))
| ev_set x r : ms_refs s x <> 0%N -> ~ owned c s x -> (r < 256)%N -> (x = 0 -> r <> 0%N) ->
    env_step c head s (st_refs s (upd (ms_refs s) x r))
| ev_ext r : m_keyed c = false -> (3 <= r < 256)%N ->
    env_step c head s (st_refs s (upd (ms_refs s) (head / m_ppe c) r)).

(** :315-325: one extent per batch, in order; [None] is a failed assertion *)
Fixpoint init_batches (c : mcfg) (s : mst) (b : nat) (chs : list nat) : option mst :=
  match chs with
  | [] => if Nat.eqb b (m_nb c) then Some s else None
  | e :: rest =>
      if Nat.ltb b (m_nb c) then
        match new_extent s (CExt (Some e)) with
        | XGot e' s' => init_batches c (st_ne s' (upd (ms_next_ext s') b e')) (S b) rest
        | _ => None
        end
      else None
  end.

(** :269-328, mini_init with meta_tail = 0.  The caller allocated the extent
    of [head]; [refs] are the reference counts at the call. *)
Definition mini_init (c : mcfg) (refs : nat -> N) (head : nat) (chs : list nat) : option mst :=
  if Nat.ltb 8 (m_nb c) || Nat.eqb (m_nb c) 0 then None
  else
    let s0 := Mst refs (upd (fun _ => None) head (Some empty_page)) (fun _ => []) (fun _ => false)
                  (fun _ => false) head (fun _ => Some 0) (fun _ => 0) 1 (fun _ => MOut) [] in
    if m_keyed c then init_batches c s0 0 chs
    else match inc8 refs (head / m_ppe c) with
         | Some (r, refs') => if N.eqb r 3 then init_batches c (st_refs s0 refs') 0 chs else None
         | None => None
         end.

(** :310-325, mini_init with meta_tail <> 0: the metadata pages are on disk,
    everything volatile is reset *)
Definition mini_load (c : mcfg) (s : mst) (chs : list nat) : option mst :=
  if Nat.ltb 8 (m_nb c) || Nat.eqb (m_nb c) 0 then None
  else init_batches c
         (Mst (ms_refs s) (ms_pages s) (fun _ => []) (fun _ => false) (fun _ => false) (ms_tail s)
              (fun _ => Some 0) (fun _ => 0) 1 (fun _ => MOut) (ms_ret s)) 0 chs.

(** :509-557, mini_append_entry run by one thread while no other thread is
    inside the allocator *)
Definition append_seq (c : mcfg) (s : mst) (e : mentry) (ch : mchoice) : option mst :=
  match ms_pages s (ms_tail s) with
  | None => None
  | Some pg =>
      match append_entry c pg e with
      | Some pg' => Some (st_pages s (upd (ms_pages s) (ms_tail s) (Some pg')))
      | None =>
          match new_tail c s (ms_tail s) ch with
          | XGot nt s1 =>
              let s2 := st_pages s1 (upd (ms_pages s1) (ms_tail s) (Some (set_next pg nt))) in
              let pg' := match append_entry c empty_page e with Some p => p | None => empty_page end in
              Some (st_tail (st_pages s2 (upd (ms_pages s2) nt (Some pg'))) nt)
          | _ => None
          end
      end
  end.

(** Two decrements with their assertions: :636-640, :679-684, :1014-1019 *)
Definition free_extent (refs : nat -> N) (e : nat) : option (nat -> N) :=
  match dec8 refs e with
  | Some (r, refs1) =>
      if N.eqb r 1 then
        match dec8 refs1 e with
        | Some (r2, refs2) => if N.eqb r2 0 then Some refs2 else None
        | None => None
        end
      else None
  | None => None
  end.

(** :630-648, mini_release from batch [b] on; [chs] are the scheduler's
    choices for metadata pages *)
Fixpoint release_loop (c : mcfg) (end_key : key) (s : mst) (b n : nat) (chs : list mchoice) : option mst :=
  match n with
  | O => Some s
  | S n' =>
      match free_extent (ms_refs s) (ms_next_ext s b) with
      | None => None
      | Some refs' =>
          let s1 := st_refs s refs' in
          if m_keyed c then
            match append_seq c s1 (Ment None b end_key) (List.hd CGo chs) with
            | None => None
            | Some s2 => release_loop c end_key s2 (S b) n' (tl chs)
            end
          else release_loop c end_key s1 (S b) n' (tl chs)
      end
  end.
Definition mini_release (c : mcfg) (end_key : key) (s : mst) (chs : list mchoice) : option mst :=
  release_loop c end_key s 0 (m_nb c) chs.

(** :666-690, mini_deinit; [None] is a failed assertion, a page that is not a
    metadata page, or an endless list (fuel) *)
Fixpoint mini_deinit (fuel : nat) (c : mcfg) (pages : nat -> option mpage) (refs : nat -> N) (a : nat)
    : option (nat -> N) :=
  match fuel with
  | O => None
  | S f =>
      match pages a with
      | None => None
      | Some pg =>
          let nx := mp_next pg in
          let after := if Nat.eqb (a / m_ppe c) (nx / m_ppe c) then Some refs
                       else free_extent refs (a / m_ppe c) in
          match after with
          | None => None
          | Some refs' => if Nat.eqb nx 0 then Some refs' else mini_deinit f c pages refs' nx
          end
      end
  end.

(** :765-786 with mini_dealloc_extent (:1011-1021): free every recorded extent *)
Fixpoint free_entries (refs : nat -> N) (l : list mentry) : option (nat -> N) :=
  match l with
  | [] => Some refs
  | e :: rest =>
      match me_ext e with
      | None => None
      | Some x => match free_extent refs x with
                  | None => None
                  | Some refs' => free_entries refs' rest
                  end
      end
  end.
Fixpoint unkeyed_for_each (fuel : nat) (pages : nat -> option mpage) (refs : nat -> N) (a : nat)
    : option (nat -> N) :=
  match fuel with
  | O => None
  | S f =>
      match pages a with
      | None => None
      | Some pg =>
          match free_entries refs (mp_entries pg) with
          | None => None
          | Some refs' => if Nat.eqb (mp_next pg) 0 then Some refs'
                          else unkeyed_for_each f pages refs' (mp_next pg)
          end
      end
  end.

(** :1002-1009 and :1023-1044, mini_unkeyed_inc_ref and mini_unkeyed_dec_ref;
    the result is the number of external references left *)
Definition unkeyed_inc_ref (c : mcfg) (refs : nat -> N) (head : nat) : option (N * (nat -> N)) :=
  match inc8 refs (head / m_ppe c) with
  | Some (r, refs') => if N.ltb 2 r then Some ((r - 2)%N, refs') else None
  | None => None
  end.
Definition unkeyed_dec_ref (fuel : nat) (c : mcfg) (pages : nat -> option mpage) (refs : nat -> N) (head : nat)
    : option (N * (nat -> N)) :=
  match dec8 refs (head / m_ppe c) with
  | None => None
  | Some (r, refs1) =>
      if N.eqb r 2 then
        match unkeyed_for_each fuel pages refs1 head with
        | None => None
        | Some refs2 =>
            match mini_deinit fuel c pages refs2 head with
            | None => None
            | Some refs3 => Some (0%N, refs3)
            end
        end
      else Some (((r + 254) mod 256)%N, refs1)
  end.

(** :707-732, mini_destroy_unused *)
Fixpoint free_nexts (refs : nat -> N) (ne : nat -> nat) (b n : nat) : option (nat -> N) :=
  match n with
  | O => Some refs
  | S n' => match free_extent refs (ne b) with
            | None => None
            | Some refs' => free_nexts refs' ne (S b) n'
            end
  end.
Definition destroy_unused (fuel : nat) (c : mcfg) (s : mst) (head : nat) : option (nat -> N) :=
  match free_nexts (ms_refs s) (ms_next_ext s) 0 (m_nb c) with
  | None => None
  | Some refs' => mini_deinit fuel c (ms_pages s) refs' head
  end.

(** An execution: creation on an extent that the caller allocated (its first
    [head] pages may hold something else), any interleaving of allocations and
    of the rest of the system, and, for an unkeyed allocator, clean shutdowns
    followed by reloads.  Entries that do not fit an empty page are excluded:
    [key_fits]. *)
Definition quiet (s : mst) : Prop := forall t, ms_pcs s t = MOut.
Definition key_fits (c : mcfg) (ch : mchoice) : Prop :=
  match ch with CCall b k => (20 + entry_size c (Ment None b k) <= m_ps c)%N | _ => True end.

Inductive mreach (c : mcfg) (head : nat) : mst -> Prop :=
| mr_init refs chs s : (forall x, refs x < 256)%N -> refs 0 <> 0%N -> head / m_ppe c <> 0 ->
    refs (head / m_ppe c) = 2%N ->
    mini_init c refs head chs = Some s -> mreach c head s
| mr_step s t ch s' : mreach c head s -> key_fits c ch -> mini_step c s t ch = MStep s' -> mreach c head s'
| mr_env s s' : mreach c head s -> env_step c head s s' -> mreach c head s'
| mr_load s k chs s1 chs' s2 : mreach c head s -> m_keyed c = false -> quiet s ->
    mini_release c k s chs = Some s1 -> mini_load c s1 chs' = Some s2 -> mreach c head s2.
