(** Neutral-atom computations: what a legal computation is. *)
From Coq Require Import List Arith ZArith Bool Reals.
From Verif Require Import NAModel.
Import ListNotations.

(** [o] sends atom [a] to [l]. *)
Definition sends (o : naop) (a : atom) (l : loc) : Prop :=
  exists t i, op_targets o = Some t /\ nth_error (op_atoms o) i = Some a /\ nth_error t i = Some l.
(** [o] loads / stores atom [a]. *)
Definition loads (o : naop) (a : atom) : Prop := match o with Load l _ => In a l | _ => False end.
Definition stores (o : naop) (a : atom) : Prop := match o with Store l _ => In a l | _ => False end.

(** After the operations [ops] atom [a] is at [l]: the last operation that sent
    it anywhere sent it to [l], or there was none and [l] is its initial
    location. *)
Definition located (init : lmap) (ops : list naop) (a : atom) (l : loc) : Prop :=
  (exists pre o post, ops = pre ++ o :: post /\ sends o a l
     /\ forall o' l', In o' post -> ~ sends o' a l')
  \/ (init a = Some l /\ forall o' l', In o' ops -> ~ sends o' a l').
(** After [ops] atom [a] is loaded: it has been loaded and not stored since. *)
Definition loaded (ops : list naop) (a : atom) : Prop :=
  exists pre o post, ops = pre ++ o :: post /\ loads o a /\ forall o', In o' post -> ~ stores o' a.

(** Two atoms on [s1], [s2] keep their relative position when sent to [e1], [e2]. *)
Definition keeps (s1 s2 e1 e2 : loc) : Prop :=
  e1 <> e2 /\ Z.compare (lx s1) (lx s2) = Z.compare (lx e1) (lx e2)
           /\ Z.compare (ly s1) (ly s2) = Z.compare (ly e1) (ly e2).

(** [o] may follow the operations [pre]. *)
Record legal (init : lmap) (pre : list naop) (o : naop) : Prop := {
  legal_load : forall a, loads o a -> ~ loaded pre a;
  legal_moved : match o with Move l _ | Store l _ => forall a, In a l -> loaded pre a | _ => True end;
  legal_once : (op_targets o <> None \/ exists l, o = Local l) -> NoDup (op_atoms o);
  legal_keeps : forall a b s1 s2 e1 e2, a <> b -> sends o a e1 -> sends o b e2 ->
    located init pre a s1 -> located init pre b s2 -> keeps s1 s2 e1 e2
}.
Definition legal_all (init : lmap) (ops : list naop) : Prop :=
  forall pre o post, ops = pre ++ o :: post -> legal init pre o.

(** Every atom that is used has an initial location, and operations have been
    constructed with as many targets as atoms. *)
Definition placed (c : nacomp) : Prop :=
  forall o, In o (na_ops c) -> constructible o
    /\ forall a, In a (op_atoms o) -> exists l, lookup (na_init c) a = Some l.

(** Straight-line motion: the position at time [t]. *)
Definition along (s e : loc) (t : R) : R * R :=
  ((1 - t) * IZR (lx s) + t * IZR (lx e), (1 - t) * IZR (ly s) + t * IZR (ly e))%R.
