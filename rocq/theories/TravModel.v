(** Reading whole vectors, matrices and diagonals out of a decision diagram: src/dd/Edge.cpp:197-289, 382-590.

    The callbacks of the traversals are modelled by the list of their arguments, in the order of the calls. Indices are
    natural numbers instead of 64-bit words. Density matrices are taken with untagged edges (tags: TagModel, C10). *)
From Coq Require Import Reals List Bool Arith.
From Verif Require Import Cplx Qsem DDModel.
Import ListNotations.
Local Open Scope R_scope.

(** std::abs(c) < threshold *)
Definition small (thr : R) (c : C) : bool := if Rlt_dec (Cmod c) thr then true else false.
(** traverseVector, 268-290 *)
Fixpoint traverseVector (thr : R) (t : vtree) (w amp : C) (i : nat) : list (nat * C) :=
  let c := (amp * w)%C in
  if small thr c then [] else
  match t with
  | VT => [(i, c)]
  | VNode q ws s =>
      (if ezero (ws false) then [] else traverseVector thr (s false) (ws false) c i) ++
      (if ezero (ws true) then [] else traverseVector thr (s true) (ws true) c (Nat.lor i (Nat.shiftl 1 q)))
  end.
(** vec.at(i) = c; None: std::out_of_range *)
Fixpoint set_at {A} (l : list A) (i : nat) (c : A) : option (list A) :=
  match l, i with
  | _ :: l', O => Some (c :: l')
  | x :: l', S i' => match set_at l' i' c with Some r => Some (x :: r) | None => None end
  | [], _ => None
  end.
Fixpoint set_all {A} (l : list A) (calls : list (nat * A)) : option (list A) :=
  match calls with [] => Some l | (i, c) :: r => match set_at l i c with Some l' => set_all l' r | None => None end end.
(** getVector, 197-211 *)
Definition getVector (thr : R) (e : vedge) : option (list C) :=
  match snd e with
  | VT => Some [fst e]
  | VNode q _ _ => set_all (repeat C0 (Nat.shiftl 2 q)) (traverseVector thr (snd e) (fst e) C1 0)
  end.
(** std::unordered_map / std::map: operator[] followed by an assignment *)
Section Maps.
Context {K A : Type} (eqK : forall a b : K, {a = b} + {a <> b}).
Fixpoint assign (k : K) (v : A) (m : list (K * A)) : list (K * A) :=
  match m with [] => [(k, v)] | (k', v') :: m' => if eqK k' k then (k, v) :: m' else (k', v') :: assign k v m' end.
Fixpoint look (k : K) (m : list (K * A)) : option A := match m with [] => None | (k', v) :: m' => if eqK k' k then Some v else look k m' end.
Definition collect (calls : list (K * A)) : list (K * A) := fold_left (fun m kv => assign (fst kv) (snd kv) m) calls [].
End Maps.
(** getSparseVector, 213-226 *)
Definition getSparseVector (thr : R) (e : vedge) : list (nat * C) :=
  match snd e with VT => [(0%nat, fst e)] | _ => collect Nat.eq_dec (traverseVector thr (snd e) (fst e) C1 0) end.
(** addToVector, 252-264; None: out of range *)
Fixpoint add_all (l : list C) (calls : list (nat * C)) : option (list C) :=
  match calls with
  | [] => Some l
  | (i, c) :: r => match nth_error l i with Some x => match set_at l i (x + c)%C with Some l' => add_all l' r | None => None end | None => None end
  end.
Definition addToVector (e : vedge) (l : list C) : option (list C) :=
  add_all l (match snd e with VT => [(0%nat, fst e)] | _ => traverseVector 0 (snd e) (fst e) C1 0 end).

(** traverseMatrix, 465-507; the recursion is on the level *)
Fixpoint traverseMatrix (thr : R) (level : nat) (t : mtree) (w amp : C) (i j : nat) : list (nat * nat * C) :=
  let c := (amp * w)%C in
  if small thr c then [] else
  match level with
  | O => [(i, j, c)]
  | S l =>
      let x := Nat.lor i (Nat.shiftl 1 l) in let y := Nat.lor j (Nat.shiftl 1 l) in
      let skip := traverseMatrix thr l t w amp i j ++ traverseMatrix thr l t w amp x y in
      match t with
      | MT => skip
      | MNode q ws s =>
          if Nat.ltb q l then skip
          else
            let child a b i' j' := if ezero (ws a b) then [] else traverseMatrix thr l (s a b) (ws a b) c i' j' in
            child false false i j ++ child false true i y ++ child true false x j ++ child true true x y
      end
  end.
(** mat.at(i).at(j) = c *)
Fixpoint set_all2 (m : list (list C)) (calls : list (nat * nat * C)) : option (list (list C)) :=
  match calls with
  | [] => Some m
  | (i, j, c) :: r =>
      match nth_error m i with
      | Some row => match set_at row j c with Some row' => match set_at m i row' with Some m' => set_all2 m' r | None => None end | None => None end
      | None => None
      end
  end.
(** getMatrix, 382-405 *)
Definition getMatrix (n : nat) (thr : R) (e : medge) : option (list (list C)) :=
  match n with
  | O => Some [[fst e]]
  | S _ => set_all2 (repeat (repeat C0 (Nat.shiftl 1 n)) (Nat.shiftl 1 n)) (traverseMatrix thr n (snd e) (fst e) C1 0 0)
  end.
(** getSparseMatrix, 407-432 *)
Definition eq2_dec (a b : nat * nat) : {a = b} + {a <> b}. Proof. decide equality; apply Nat.eq_dec. Defined.
Definition getSparseMatrix (n : nat) (thr : R) (e : medge) : list (nat * nat * C) :=
  match n with O => [((0%nat, 0%nat), fst e)] | S _ => collect eq2_dec (traverseMatrix thr n (snd e) (fst e) C1 0 0) end.

(** traverseDiagonal, 557-590: the real parts of the weights are multiplied *)
Fixpoint traverseDiagonal (thr : R) (level : nat) (t : mtree) (w : C) (prob : R) (i : nat) : list (nat * R) :=
  let val := prob * fst w in
  if Rlt_dec val thr then [] else
  match level with
  | O => [(i, val)]
  | S l =>
      let x := Nat.lor i (Nat.shiftl 1 l) in
      let skip := traverseDiagonal thr l t w prob i ++ traverseDiagonal thr l t w prob x in
      match t with
      | MT => skip
      | MNode q ws s =>
          if Nat.ltb q l then skip
          else (if ezero (ws false false) then [] else traverseDiagonal thr l (s false false) (ws false false) val i) ++
               (if ezero (ws true true) then [] else traverseDiagonal thr l (s true true) (ws true true) val x)
      end
  end.
(** getSparseProbabilityVector, 512-532 *)
Definition getSparseProbabilityVector (n : nat) (thr : R) (e : medge) : list (nat * R) :=
  match n with O => [(0%nat, fst (fst e))] | S _ => collect Nat.eq_dec (traverseDiagonal thr n (snd e) (fst e) 1 0) end.
(** DDDefinitions.hpp:101-110: the most significant bit first *)
Definition intToBinaryString (i nbits : nat) : list bool := rev (map (Nat.testbit i) (seq 0 nbits)).
(** getSparseProbabilityVectorStrKeys, 534-555: the length of the keys is taken from the topmost node (543); DUb: there is none *)
Definition getSparseProbabilityVectorStrKeys (n : nat) (thr : R) (e : medge) : dres (list (list bool * R)) :=
  match n with
  | O => DOk [([false], fst (fst e))]
  | S _ =>
      match snd e with
      | MT => DUb
      | MNode q _ _ => DOk (collect (list_eq_dec Bool.bool_dec) (map (fun ir => (intToBinaryString (fst ir) (S q), snd ir)) (traverseDiagonal thr n (snd e) (fst e) 1 0)))
      end
  end.
