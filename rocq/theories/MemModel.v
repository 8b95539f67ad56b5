(** Model of dd::MemoryManager (src/dd/MemoryManager.cpp,
    include/mqt-core/dd/MemoryManager.hpp and
    src/dd/statistics/MemoryManagerStatistics.cpp). *)
From Coq Require Import List Arith Bool.
Import ListNotations.

(** An address is a chunk number and an entry offset inside the chunk.
    Chunks are never moved while they are in use (the outer vector moves only
    the chunk headers), so this identifies an entry. *)
Definition addr := (nat * nat)%type.

Definition addr_eqb (a b : addr) : bool :=
  Nat.eqb (fst a) (fst b) && Nat.eqb (snd a) (snd b).

(** MemoryManagerStatistics (MemoryManagerStatistics.hpp); the byte-size
    reporting functions are not modelled. *)
Record mmstats := {
  numAllocations : nat;
  numAllocated : nat;
  numUsed : nat;
  numAvailableForReuse : nat;
  peakNumUsed : nat;
  peakNumAvailableForReuse : nat }.

(** MemoryManager.hpp: the intrusive list [available] is represented by the
    list of its addresses (head first), [chunks] by the list of chunk sizes counted in
    entries, [chunkIt] by the offset inside the chunk that is currently being
    handed out; that chunk is always the last one, [chunkEndIt] its size. *)
Record mm := {
  available : list addr;
  chunks : list nat;
  chunkIt : nat;
  stats : mmstats }.

(** MemoryManager.cpp:20-28. *)
Definition mm_init (initialAllocationSize : nat) : mm :=
  {| available := [];
     chunks := [initialAllocationSize];
     chunkIt := 0;
     stats := {| numAllocations := 1; numAllocated := initialAllocationSize;
                 numUsed := 0; numAvailableForReuse := 0;
                 peakNumUsed := 0; peakNumAvailableForReuse := 0 |} |}.

(** MemoryManagerStatistics.cpp:50-54 (numEntries = 1). *)
Definition trackUsedEntries (s : mmstats) : mmstats :=
  {| numAllocations := numAllocations s; numAllocated := numAllocated s;
     numUsed := S (numUsed s);
     numAvailableForReuse := numAvailableForReuse s;
     peakNumUsed := Nat.max (peakNumUsed s) (S (numUsed s));
     peakNumAvailableForReuse := peakNumAvailableForReuse s |}.

(** MemoryManagerStatistics.cpp:56-61 (numEntries = 1). Natural subtraction
    instead of unsigned wrap-around; the proofs show it is never truncated. *)
Definition trackReusedEntries (s : mmstats) : mmstats :=
  {| numAllocations := numAllocations s; numAllocated := numAllocated s;
     numUsed := S (numUsed s);
     numAvailableForReuse := numAvailableForReuse s - 1;
     peakNumUsed := Nat.max (peakNumUsed s) (S (numUsed s));
     peakNumAvailableForReuse := peakNumAvailableForReuse s |}.

(** MemoryManagerStatistics.cpp:63-68. *)
Definition trackReturnedEntry (s : mmstats) : mmstats :=
  {| numAllocations := numAllocations s; numAllocated := numAllocated s;
     numUsed := numUsed s - 1;
     numAvailableForReuse := S (numAvailableForReuse s);
     peakNumUsed := peakNumUsed s;
     peakNumAvailableForReuse :=
       Nat.max (peakNumAvailableForReuse s) (S (numAvailableForReuse s)) |}.

(** MemoryManagerStatistics.cpp:30-32 and 25-28. *)
Definition getTotalNumAvailable (s : mmstats) : nat := numAllocated s - numUsed s.
Definition getNumAvailableFromChunks (s : mmstats) : nat :=
  getTotalNumAvailable s - numAvailableForReuse s.

(** MemoryManager.cpp:103-105: [chunkIt != chunkEndIt]. *)
Definition entryAvailableInChunk (m : mm) : bool :=
  negb (Nat.eqb (chunkIt m) (last (chunks m) 0)).

(** MemoryManager.cpp:79-91; GROWTH_FACTOR = 2 (MemoryManager.hpp:56). *)
Definition allocateNewChunk (m : mm) : mm :=
  let numNewEntries := 2 * last (chunks m) 0 in
  {| available := available m;
     chunks := chunks m ++ [numNewEntries];
     chunkIt := 0;
     stats := {| numAllocations := S (numAllocations (stats m));
                 numAllocated := numAllocated (stats m) + numNewEntries;
                 numUsed := numUsed (stats m);
                 numAvailableForReuse := numAvailableForReuse (stats m);
                 peakNumUsed := peakNumUsed (stats m);
                 peakNumAvailableForReuse := peakNumAvailableForReuse (stats m) |} |}.

(** MemoryManager.cpp:93-101. [None]: the cursor is at the end of the chunk,
    i.e. the dereference is undefined behaviour. *)
Definition getEntryFromChunk (m : mm) : option (addr * mm) :=
  if entryAvailableInChunk m then
    Some ((length (chunks m) - 1, chunkIt m),
          {| available := available m; chunks := chunks m;
             chunkIt := S (chunkIt m);
             stats := trackUsedEntries (stats m) |})
  else None.

(** MemoryManager.cpp:30-40 together with getEntryFromAvailableList (70-77). *)
Definition mm_get (m : mm) : option (addr * mm) :=
  match available m with
  | a :: rest =>
      Some (a, {| available := rest; chunks := chunks m; chunkIt := chunkIt m;
                  stats := trackReusedEntries (stats m) |})
  | [] =>
      if entryAvailableInChunk m then getEntryFromChunk m
      else getEntryFromChunk (allocateNewChunk m)
  end.

(** MemoryManager.cpp:42-46. *)
Definition mm_return (a : addr) (m : mm) : mm :=
  {| available := a :: available m; chunks := chunks m; chunkIt := chunkIt m;
     stats := trackReturnedEntry (stats m) |}.

(** MemoryManager.cpp:48-64. The bytes of chunk 0 are kept as they are (vector
    resize), which is modelled where memory contents are modelled (HeapModel).
    With [resizeToTotal] the chunk may be moved; old addresses are invalid
    after a reset in any case. *)
Definition mm_reset (resizeToTotal : bool) (m : mm) : mm :=
  let size0 := if resizeToTotal then numAllocated (stats m) else hd 0 (chunks m) in
  {| available := [];
     chunks := [size0];
     chunkIt := 0;
     stats := {| numAllocations :=
                   numAllocations (stats m) + (if resizeToTotal then 1 else 0);
                 numAllocated := size0;
                 numUsed := 0; numAvailableForReuse := 0;
                 peakNumUsed := peakNumUsed (stats m);
                 peakNumAvailableForReuse := peakNumAvailableForReuse (stats m) |} |}.

(** Client histories. [Get] asks for an entry, [Ret a] hands entry [a] back,
    [Reset b] resets the manager. The log [out] of outstanding entries is kept
    by the client, not by the manager. *)
Inductive mop := Get | Ret (a : addr) | Reset (resizeToTotal : bool).

Definition remove_addr (a : addr) (l : list addr) : list addr :=
  filter (fun b => negb (addr_eqb a b)) l.

(** One client step. [None] stands for undefined behaviour inside the manager;
    an attempt to return an entry that is not outstanding is a client error
    and is ignored by [mstep] (the history is then simply a shorter one). *)
Definition mstep (st : mm * list addr) (o : mop) : option (mm * list addr) :=
  let (m, out) := st in
  match o with
  | Get => match mm_get m with
           | Some (a, m') => Some (m', a :: out)
           | None => None
           end
  | Ret a => if existsb (addr_eqb a) out
             then Some (mm_return a m, remove_addr a out)
             else Some (m, out)
  | Reset b => Some (mm_reset b m, [])
  end.

Fixpoint mrun (ops : list mop) (st : mm * list addr) : option (mm * list addr) :=
  match ops with
  | [] => Some st
  | o :: rest => match mstep st o with
                 | Some st' => mrun rest st'
                 | None => None
                 end
  end.
