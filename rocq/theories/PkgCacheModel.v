(** Model of the interplay of garbage collection and compute tables in
    dd::Package (src/dd/Package.cpp:95-158, include/mqt-core/dd/Package.hpp). *)
From Coq Require Import List Arith Bool.
From Verif Require Import MemModel HeapModel.
Import ListNotations.

Inductive kind := KV | KM | KD.

(** The compute tables of the package (Package.hpp:676-702, 942, 963, 984-988,
    1264, 1361-1363, 1496-1498, 1680-1682). *)
Inductive table :=
| vectorAdd | matrixAdd | densityAdd
| vectorAddMagnitudes | matrixAddMagnitudes
| conjugateVector | conjugateMatrixTranspose
| matrixVectorMultiplication | matrixMatrixMultiplication | densityDensityMultiplication
| vectorInnerProduct | vectorKronecker | matrixKronecker
| densityTrace | matrixTrace
| stochasticNoiseOperationCache | densityNoise.

(** Node kinds occurring in the operands and results of each table (template
    arguments at the lines above). *)
Definition table_kinds (t : table) : list kind :=
  match t with
  | vectorAdd | vectorAddMagnitudes | conjugateVector
  | vectorInnerProduct | vectorKronecker => [KV]
  | matrixAdd | matrixAddMagnitudes | conjugateMatrixTranspose
  | matrixMatrixMultiplication | matrixKronecker | matrixTrace
  | stochasticNoiseOperationCache => [KM]
  | densityAdd | densityDensityMultiplication | densityTrace | densityNoise => [KD]
  | matrixVectorMultiplication => [KM; KV]
  end.

(** Whether entries hold pointers into the number table: Edge (as opposed to
    CachedEdge and node pointers) contains dd::Complex. *)
Definition table_has_numbers (t : table) : bool :=
  match t with
  | stochasticNoiseOperationCache | densityNoise => true
  | _ => false
  end.

(** Package.cpp:114-156: which tables are cleared, given which of the four
    unique tables collected something. *)
Definition cleared (v m d c : bool) (t : table) : bool :=
  (v && match t with
        | vectorAdd | vectorInnerProduct | vectorKronecker
        | matrixVectorMultiplication => true
        | _ => false
        end)
  || (m && match t with
           | matrixAdd | conjugateMatrixTranspose | matrixKronecker | matrixTrace
           | matrixVectorMultiplication | matrixMatrixMultiplication
           | stochasticNoiseOperationCache => true
           | _ => false
           end)
  || (d && match t with
           | densityAdd | densityDensityMultiplication | densityNoise
           | densityTrace => true
           | _ => false
           end)
  || (c && match t with
           | matrixVectorMultiplication | matrixMatrixMultiplication
           | conjugateMatrixTranspose | vectorInnerProduct | vectorKronecker
           | matrixKronecker | matrixTrace | stochasticNoiseOperationCache
           | densityAdd | densityDensityMultiplication | densityNoise
           | densityTrace => true
           | _ => false
           end).

(** A cache entry: the nodes and numbers its operands and result mention. *)
Record centry := { e_nodes : list (kind * addr); e_nums : list nat }.

(** Number table: live entries, reference counts, limits
    (RealNumberUniqueTable.cpp:148-193; buckets omitted, they do not matter for
    which entries are collected). *)
Record numtab := { n_live : list nat; n_ref : nat -> nat; n_limit : nat; n_init : nat }.

Definition num_gc (force : bool) (t : numtab) : nat * numtab :=
  let n := length (n_live t) in
  if (negb force && Nat.ltb n (n_limit t)) || Nat.leb n 1 then (0, t)
  else
    let l := filter (fun x => negb (Nat.eqb (n_ref t x) 0)) (n_live t) in
    let n' := length l in
    (n - n',
     {| n_live := l; n_ref := n_ref t;
        n_limit := if Nat.ltb (n_limit t / 10 * 9) n' then n' + n_init t
                   else if Nat.ltb n' (n_limit t / 128) then n_limit t / 2
                   else n_limit t;
        n_init := n_init t |}).

Record pst := {
  heapOf : kind -> hst;
  nums : numtab;
  cache : table -> list centry }.

Section Pkg.
Variable cfg : kind -> config.

Definition kind_eqb (a b : kind) : bool :=
  match a, b with KV, KV | KM, KM | KD, KD => true | _, _ => false end.

Definition set_heap (f : kind -> hst) (k : kind) (x : hst) : kind -> hst :=
  fun k' => if kind_eqb k k' then x else f k'.

Definition gc_heap (k : kind) (force : bool) (st : hst) : nat * hst :=
  let r := garbageCollect (cfg k) force (hs st) in
  (fst r, {| hs := snd r; holds := holds st |}).

(** UniqueTable.cpp:62-64 / RealNumberUniqueTable::possiblyNeedsCollection. *)
Definition needsCollection (s : hp) : bool := negb (Nat.ltb (hentries s) (hgclimit s)).
Definition numNeedsCollection (t : numtab) : bool :=
  negb (Nat.ltb (length (n_live t)) (n_limit t)).

(** Package.cpp:95-158. *)
Definition pkg_gc (force : bool) (s : pst) : pst :=
  if negb force && negb (needsCollection (hs (heapOf s KV)))
     && negb (needsCollection (hs (heapOf s KM)))
     && negb (needsCollection (hs (heapOf s KD)))
     && negb (numNeedsCollection (nums s))
  then s
  else
    let rc := num_gc force (nums s) in
    let force' := if Nat.ltb 0 (fst rc) then true else force in
    let rv := gc_heap KV force' (heapOf s KV) in
    let rm := gc_heap KM force' (heapOf s KM) in
    let rd := gc_heap KD force' (heapOf s KD) in
    {| heapOf := fun k => match k with KV => snd rv | KM => snd rm | KD => snd rd end;
       nums := snd rc;
       cache := fun t => if cleared (Nat.ltb 0 (fst rv)) (Nat.ltb 0 (fst rm))
                                    (Nat.ltb 0 (fst rd)) (Nat.ltb 0 (fst rc)) t
                         then [] else cache s t |}.

(** Histories: client events on the three heaps (no separate collection or
    reset), insertion of a computed result into a table, updates of the number
    table, package garbage collection. *)
Inductive pev :=
| PHeap (k : kind) (e : hev)
| PInsert (t : table) (c : centry)
| PNum (live' : list nat) (ref' : nat -> nat)
| PGC (force : bool).

Definition mentions_ok (s : pst) (t : table) (c : centry) : bool :=
  forallb (fun x => existsb (kind_eqb (fst x)) (table_kinds t)
                    && is_live (hs (heapOf s (fst x))) (snd x)) (e_nodes c)
  && (if table_has_numbers t
      then forallb (fun n => existsb (Nat.eqb n) (n_live (nums s))) (e_nums c)
      else match e_nums c with [] => true | _ => false end).

(** An insertion only mentions live nodes (an insertion that does not is a
    client error and ignored); it may evict arbitrary entries - the model keeps
    them, which only makes the property harder. New numbers may be added by
    [PNum], existing ones only disappear by collection. *)
Definition pstep (s : pst) (e : pev) : option pst :=
  match e with
  | PHeap k ev =>
      match ev with
      | EGC _ | EReset => Some s
      | _ => match hstep (cfg k) (heapOf s k) ev with
             | Some h => Some {| heapOf := set_heap (heapOf s) k h;
                                 nums := nums s; cache := cache s |}
             | None => None
             end
      end
  | PInsert t c =>
      if mentions_ok s t c then
        Some {| heapOf := heapOf s; nums := nums s;
                cache := fun t' => if match t, t' with
                                      | vectorAdd, vectorAdd | matrixAdd, matrixAdd
                                      | densityAdd, densityAdd
                                      | vectorAddMagnitudes, vectorAddMagnitudes
                                      | matrixAddMagnitudes, matrixAddMagnitudes
                                      | conjugateVector, conjugateVector
                                      | conjugateMatrixTranspose, conjugateMatrixTranspose
                                      | matrixVectorMultiplication, matrixVectorMultiplication
                                      | matrixMatrixMultiplication, matrixMatrixMultiplication
                                      | densityDensityMultiplication, densityDensityMultiplication
                                      | vectorInnerProduct, vectorInnerProduct
                                      | vectorKronecker, vectorKronecker
                                      | matrixKronecker, matrixKronecker
                                      | densityTrace, densityTrace
                                      | matrixTrace, matrixTrace
                                      | stochasticNoiseOperationCache, stochasticNoiseOperationCache
                                      | densityNoise, densityNoise => true
                                      | _, _ => false
                                      end
                                   then c :: cache s t' else cache s t' |}
      else Some s
  | PNum live' ref' =>
      Some {| heapOf := heapOf s;
              nums := {| n_live := live' ++ n_live (nums s); n_ref := ref';
                         n_limit := n_limit (nums s); n_init := n_init (nums s) |};
              cache := cache s |}
  | PGC force => Some (pkg_gc force s)
  end.

Fixpoint prun (evs : list pev) (s : pst) : option pst :=
  match evs with
  | [] => Some s
  | e :: rest => match pstep s e with Some s' => prun rest s' | None => None end
  end.

Definition pinit : pst :=
  {| heapOf := fun k => hinit (cfg k);
     nums := {| n_live := []; n_ref := fun _ => 0; n_limit := 10; n_init := 10 |};
     cache := fun _ => [] |}.
End Pkg.
