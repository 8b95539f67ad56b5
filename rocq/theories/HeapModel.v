(** Model of the node heap of the DD package: unique table, reference counting
    and garbage collection of one node type
    (include/mqt-core/dd/UniqueTable.hpp, src/dd/UniqueTable.cpp,
    include/mqt-core/dd/Node.hpp, include/mqt-core/dd/Package.hpp). *)
From Coq Require Import List Arith Bool.
From Verif Require Import MemModel.
Import ListNotations.

(** Edge<Node> (Edge.hpp): weight and successor. Weights are compared by the
    address of their entries in the number table, so they are modelled as
    numbers; [None] is the terminal node (nullptr). The reference counts of the
    weights themselves are left out. *)
Definition weight := nat.
Definition edge := (weight * option addr)%type.

(** NodeBase/vNode/mNode/dNode (Node.hpp:28-150): level, successors, flags and
    reference count. The intrusive [next] pointer is represented by the bucket
    lists. *)
Record node := mkNode { nv : nat; ne : list edge; nflags : nat; nref : nat }.

(** Memory contents. Chunk memory is value-initialised (std::vector of bytes). *)
Definition heap := addr -> node.
Definition zero_node : node := mkNode 0 [] 0 0.

Definition upd (h : heap) (a : addr) (n : node) : heap :=
  fun b => if addr_eqb a b then n else h b.

Definition set_ref (n : node) (r : nat) : node := mkNode (nv n) (ne n) (nflags n) r.

Definition opt_addr_eqb (a b : option addr) : bool :=
  match a, b with
  | None, None => true
  | Some x, Some y => addr_eqb x y
  | _, _ => false
  end.

Definition edge_eqb (x y : edge) : bool :=
  Nat.eqb (fst x) (fst y) && opt_addr_eqb (snd x) (snd y).

Fixpoint edges_eqb (l1 l2 : list edge) : bool :=
  match l1, l2 with
  | [], [] => true
  | x :: r1, y :: r2 => edge_eqb x y && edges_eqb r1 r2
  | _, _ => false
  end.

Fixpoint set_nth {A} (n : nat) (x : A) (l : list A) : list A :=
  match l, n with
  | [], _ => []
  | _ :: r, 0 => x :: r
  | y :: r, S n' => y :: set_nth n' x r
  end.

(** Buckets: level -> bucket -> chain (head first). *)
Definition tables := list (list (list addr)).
Definition live (T : tables) : list addr := concat (concat T).

(** Configuration: hash of the successors (arbitrary), number of levels and
    buckets, whether flags take part in the comparison (density-matrix nodes),
    saturation value of the counter, initial collection limit. *)
Record config := {
  c_hash : list edge -> nat;
  c_nvars : nat;
  c_nbuckets : nat;
  c_cmpflags : bool;
  c_maxref : nat;
  c_gclimit : nat;
  c_initalloc : nat }.

Record hp := {
  hmm : mm;
  hheap : heap;
  htab : tables;
  hentries : nat;
  hgclimit : nat }.

Section WithConfig.
Variable cfg : config.

(** UniqueTable.cpp:24-44 after Package construction (resize(nqubits)). *)
Definition hp_init : hp :=
  {| hmm := mm_init (c_initalloc cfg);
     hheap := fun _ => zero_node;
     htab := repeat (repeat [] (c_nbuckets cfg)) (c_nvars cfg);
     hentries := 0;
     hgclimit := c_gclimit cfg |}.

(** UniqueTable.hpp:78-88. The code masks with nBuckets-1 where nBuckets is a
    power of two; modelled as the remainder. *)
Definition key (es : list edge) : nat := c_hash cfg es mod c_nbuckets cfg.

(** UniqueTable.hpp:90-97. *)
Definition nodesAreEqual (p q : node) : bool :=
  edges_eqb (ne p) (ne q)
  && (if c_cmpflags cfg then Nat.eqb (nflags p) (nflags q) else true).

(** UniqueTable.hpp:244-266 (the loop; first match). *)
Fixpoint searchTable (h : heap) (p : addr) (bucket : list addr) : option addr :=
  match bucket with
  | [] => None
  | b :: rest => if nodesAreEqual (h p) (h b) then Some b else searchTable h p rest
  end.

(** UniqueTable.hpp:103-128 including the hand-back of a duplicate (252-256). *)
Definition lookup (p : addr) (s : hp) : addr * hp :=
  let n := hheap s p in
  let k := key (ne n) in
  let tv := nth (nv n) (htab s) [] in
  let bucket := nth k tv [] in
  match searchTable (hheap s) p bucket with
  | Some b =>
      (b, if addr_eqb p b then s
          else {| hmm := mm_return p (hmm s); hheap := hheap s; htab := htab s;
                  hentries := hentries s; hgclimit := hgclimit s |})
  | None =>
      (p, {| hmm := hmm s; hheap := hheap s;
             htab := set_nth (nv n) (set_nth k (p :: bucket) tv) (htab s);
             hentries := S (hentries s); hgclimit := hgclimit s |})
  end.

(** Package.hpp:478-490: take an entry and fill in level, flags, successors.
    The reference count of the entry is NOT written (only asserted to be 0). *)
Definition allocNode (v : nat) (es : list edge) (fl : nat) (s : hp)
  : option (addr * hp) :=
  match mm_get (hmm s) with
  | None => None
  | Some (p, m') =>
      Some (p, {| hmm := m';
                  hheap := upd (hheap s) p (mkNode v es fl (nref (hheap s p)));
                  htab := htab s; hentries := hentries s; hgclimit := hgclimit s |})
  end.

(** Package.hpp:472-510 for a node that is neither zero nor an identity;
    [es] are the normalised successors (normalisation: DDModel.v). [None]: no
    memory or level out of range (tables[v] out of bounds). *)
Definition makeNode (v : nat) (es : list edge) (fl : nat) (s : hp)
  : option (addr * hp) :=
  if Nat.ltb v (c_nvars cfg) then
    match allocNode v es fl s with
    | None => None
    | Some (p, s1) => Some (lookup p s1)
    end
  else None.

(** Package.hpp:491-503 and Edge<Node>::normalize returning zero (Edge.cpp):
    the node taken from the manager is handed back without being stored. *)
Definition makeDropped (v : nat) (es : list edge) (fl : nat) (s : hp) : option hp :=
  match allocNode v es fl s with
  | None => None
  | Some (p, s1) =>
      Some {| hmm := mm_return p (hmm s1); hheap := hheap s1; htab := htab s1;
              hentries := hentries s1; hgclimit := hgclimit s1 |}
  end.

(** Package.hpp:206-215 with UniqueTable.cpp:46-52 and Node.hpp:218-224.
    Recursion on fuel; running out of fuel is an error outcome which the
    theorems exclude (levels strictly decrease along edges). *)
Fixpoint incRef (fuel : nat) (p : option addr) (h : heap) : option heap :=
  match fuel with
  | 0 => None
  | S f =>
    match p with
    | None => Some h
    | Some a =>
      if Nat.eqb (nref (h a)) (c_maxref cfg) then Some h
      else
        let h1 := upd h a (set_ref (h a) (S (nref (h a)))) in
        if Nat.eqb (nref (h1 a)) 1 then
          fold_left (fun acc (e : edge) =>
                       match acc with None => None | Some h' => incRef f (snd e) h' end)
                    (ne (h1 a)) (Some h1)
        else Some h1
    end
  end.

(** Package.hpp:227-236 with UniqueTable.cpp:54-60 and Node.hpp:236-244.
    Decrementing a zero count (asserted not to happen; unsigned wrap-around in
    release builds) is an error outcome. *)
Fixpoint decRef (fuel : nat) (p : option addr) (h : heap) : option heap :=
  match fuel with
  | 0 => None
  | S f =>
    match p with
    | None => Some h
    | Some a =>
      if Nat.eqb (nref (h a)) (c_maxref cfg) then Some h
      else
        match nref (h a) with
        | 0 => None
        | S r =>
          let h1 := upd h a (set_ref (h a) r) in
          if Nat.eqb r 0 then
            fold_left (fun acc (e : edge) =>
                         match acc with None => None | Some h' => decRef f (snd e) h' end)
                      (ne (h1 a)) (Some h1)
          else Some h1
        end
    end
  end.

Definition with_heap (s : hp) (h : heap) : hp :=
  {| hmm := hmm s; hheap := h; htab := htab s;
     hentries := hentries s; hgclimit := hgclimit s |}.

(** UniqueTable.cpp:76-95: unlink the entries with count 0. *)
Definition alive (h : heap) (a : addr) : bool := negb (Nat.eqb (nref (h a)) 0).
Definition sweep (h : heap) (T : tables) : tables :=
  map (map (filter (alive h))) T.
Definition dead (h : heap) (T : tables) : list addr :=
  filter (fun a => negb (alive h a)) (live T).

(** UniqueTable.cpp:66-112. Result: number of collected entries and new state.
    The per-level counters are summed up. *)
Definition garbageCollect (force : bool) (s : hp) : nat * hp :=
  if (negb force && Nat.ltb (hentries s) (hgclimit s)) || Nat.eqb (hentries s) 0
  then (0, s)
  else
    let T' := sweep (hheap s) (htab s) in
    let d := dead (hheap s) (htab s) in
    let n' := hentries s - length d in
    (hentries s - n',
     {| hmm := fold_left (fun m a => mm_return a m) d (hmm s);
        hheap := hheap s;
        htab := T';
        hentries := n';
        hgclimit := if Nat.ltb (hgclimit s / 10 * 9) n'
                    then n' + c_gclimit cfg else hgclimit s |}).

(** Package.cpp:75-93, UniqueTable.cpp:114-125, MemoryManager.cpp:48-64: the
    tables are emptied and the manager starts over in chunk 0, whose contents
    are left as they are; later chunks are released (a chunk allocated later is
    value-initialised). *)
Definition hp_reset (s : hp) : hp :=
  {| hmm := mm_reset false (hmm s);
     hheap := fun a => if Nat.eqb (fst a) 0 then hheap s a else zero_node;
     htab := map (map (fun _ => [])) (htab s);
     hentries := 0;
     hgclimit := c_gclimit cfg |}.

(** Client histories; the client keeps the list [holds] of node addresses on
    which it called incRef and not yet decRef. *)
Inductive hev :=
| EMake (v : nat) (es : list edge) (fl : nat)
| EDrop (v : nat) (es : list edge) (fl : nat)
| EInc (p : option addr)
| EDec (p : option addr)
| EGC (force : bool)
| EReset.

Record hst := { hs : hp; holds : list addr }.

Definition is_live (s : hp) (a : addr) : bool := existsb (addr_eqb a) (live (htab s)).

(** Successors must be terminal or stored nodes of a lower level. *)
Definition edges_ok (s : hp) (v : nat) (es : list edge) : bool :=
  forallb (fun e => match snd e with
                    | None => true
                    | Some c => is_live s c && Nat.ltb (nv (hheap s c)) v
                    end) es.

(** Remove one occurrence. *)
Fixpoint remove1 (a : addr) (l : list addr) : list addr :=
  match l with
  | [] => []
  | b :: r => if addr_eqb a b then r else b :: remove1 a r
  end.

(** One client step. Events that violate the client's obligations (level out of
    range, successor not stored, incRef on a node that is not stored, decRef
    without hold) are ignored. [None] is an error inside the package. *)
Definition hstep (st : hst) (e : hev) : option hst :=
  let s := hs st in
  match e with
  | EMake v es fl =>
      if Nat.ltb v (c_nvars cfg) && edges_ok s v es then
        match makeNode v es fl s with
        | Some (_, s') => Some {| hs := s'; holds := holds st |}
        | None => None
        end
      else Some st
  | EDrop v es fl =>
      if Nat.ltb v (c_nvars cfg) && edges_ok s v es then
        match makeDropped v es fl s with
        | Some s' => Some {| hs := s'; holds := holds st |}
        | None => None
        end
      else Some st
  | EInc None => Some st
  | EInc (Some a) =>
      if is_live s a then
        match incRef (S (S (nv (hheap s a)))) (Some a) (hheap s) with
        | Some h' => Some {| hs := with_heap s h'; holds := a :: holds st |}
        | None => None
        end
      else Some st
  | EDec None => Some st
  | EDec (Some a) =>
      if existsb (addr_eqb a) (holds st) then
        match decRef (S (S (nv (hheap s a)))) (Some a) (hheap s) with
        | Some h' => Some {| hs := with_heap s h'; holds := remove1 a (holds st) |}
        | None => None
        end
      else Some st
  | EGC force => Some {| hs := snd (garbageCollect force s); holds := holds st |}
  | EReset => Some {| hs := hp_reset s; holds := [] |}
  end.

Fixpoint hrun (evs : list hev) (st : hst) : option hst :=
  match evs with
  | [] => Some st
  | e :: rest => match hstep st e with
                 | Some st' => hrun rest st'
                 | None => None
                 end
  end.

Definition hinit : hst := {| hs := hp_init; holds := [] |}.

End WithConfig.
