(** Specification of a cache: what may be reported for a key, given the history
    (oldest operation first). *)
From Coq Require Import List Arith.
From Verif Require Import CacheModel.
Import ListNotations.

(** [r] was inserted for [key], and no clear happened since. *)
Definition inserted_since_clear {K R} (key : K) (r : R) (ops : list (cop K R)) : Prop :=
  exists before h after, ops = before ++ CInsert h key r :: after /\ ~ In CClear after.

(** [r] belongs to the latest insertion for [key], and no clear happened since. *)
Definition latest_insertion {K R} (key : K) (r : R) (ops : list (cop K R)) : Prop :=
  exists before h after, ops = before ++ CInsert h key r :: after /\ ~ In CClear after
    /\ forall h' r', ~ In (CInsert h' key r') after.

(** All hash values of the history are given by a function of the key. *)
Definition hashed_by {K R} (f : K -> nat) (ops : list (cop K R)) : Prop :=
  forall o, In o ops -> match o with
                        | CInsert h key _ => h = f key
                        | CLookup h key => h = f key
                        | CClear => True
                        end.
