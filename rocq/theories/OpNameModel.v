(** Codes and names of operation types: include/mqt-core/ir/operations/OpType.inc, OpType.hpp:20-46,
    src/ir/operations/OpType.cpp. *)
From Coq Require Import NArith String List Bool.
From Verif Require Import GateModel.
Import ListNotations.
Local Open Scope string_scope.
Local Open Scope list_scope.
Local Open Scope N_scope.

(** OpTypeFlags, OpType.hpp:20-24 *)
Definition OpTypeNone : N := 0.
Definition OpTypeInv : N := 1.
Definition OpTypeDiag : N := 2.
(** NUM_OP_TYPE_FLAG_BITS, 26 *)
Definition flagBits : N := 2.

(** The entries HANDLE_OP_TYPE(N, id, flags, repr) of OpType.inc *)
Definition entry (t : optype) : N * N * string :=
  match t with
  | gNone => (0, 0, "none")
  | gGPhase => (1, 0, "gphase")
  | gI => (2, OpTypeDiag, "i")
  | gBarrier => (3, OpTypeDiag, "barrier")
  | gH => (4, OpTypeNone, "h")
  | gX => (5, OpTypeNone, "x")
  | gY => (6, OpTypeNone, "y")
  | gZ => (7, OpTypeDiag, "z")
  | gS => (8, OpTypeDiag, "s")
  | gSdg => (8, N.lor OpTypeDiag OpTypeInv, "sdg")
  | gT => (9, OpTypeDiag, "t")
  | gTdg => (9, N.lor OpTypeDiag OpTypeInv, "tdg")
  | gV => (10, OpTypeNone, "v")
  | gVdg => (10, OpTypeInv, "vdg")
  | gU => (11, OpTypeNone, "u")
  | gU2 => (12, OpTypeNone, "u2")
  | gP => (13, OpTypeDiag, "p")
  | gSX => (14, OpTypeNone, "sx")
  | gSXdg => (14, OpTypeInv, "sxdg")
  | gRX => (15, OpTypeNone, "rx")
  | gRY => (16, OpTypeNone, "ry")
  | gRZ => (17, OpTypeDiag, "rz")
  | gSWAP => (18, OpTypeNone, "swap")
  | giSWAP => (19, OpTypeNone, "iswap")
  | giSWAPdg => (19, OpTypeInv, "iswapdg")
  | gPeres => (20, OpTypeNone, "peres")
  | gPeresdg => (20, OpTypeInv, "peresdg")
  | gDCX => (21, OpTypeNone, "dcx")
  | gECR => (22, OpTypeNone, "ecr")
  | gRXX => (23, OpTypeNone, "rxx")
  | gRYY => (24, OpTypeNone, "ryy")
  | gRZZ => (25, OpTypeDiag, "rzz")
  | gRZX => (26, OpTypeNone, "rzx")
  | gXXminusYY => (27, OpTypeNone, "xx_minus_yy")
  | gXXplusYY => (28, OpTypeNone, "xx_plus_yy")
  | gCompound => (29, OpTypeNone, "compound")
  | gMeasure => (30, OpTypeNone, "measure")
  | gReset => (31, OpTypeNone, "reset")
  | gClassicControlled => (32, OpTypeNone, "classic_controlled")
  | gATrue => (33, 0, "a_true")
  | gAFalse => (34, 0, "a_false")
  | gMultiATrue => (35, 0, "multi_a_true")
  | gMultiAFalse => (36, 0, "multi_a_false")
  | gMove => (37, 0, "move")
  | gAodActivate => (38, 0, "aod_activate")
  | gAodDeactivate => (39, 0, "aod_deactivate")
  | gAodMove => (40, 0, "aod_move")
  end.
(** enum OpType, OpType.hpp:29-34: the value of an enumerator *)
Definition code (t : optype) : N := let '(n, f, _) := entry t in N.lor (N.shiftl n flagBits) f.
(** LAST_OP_TYPE(41), OpType.hpp:32 *)
Definition OpTypeEnd : N := N.shiftl 41 flagBits.
(** toString(OpType), OpType.cpp:19-33 *)
Definition toString (t : optype) : string := snd (entry t).
(** isDiagonalGate, Operation.hpp:147-150 *)
Definition isDiagonalGate (c : N) : bool := negb (N.land c OpTypeDiag =? 0).
(** +type ^ OpTypeInv, dd/Operations.cpp:99 *)
Definition inverted (c : N) : N := N.lxor c OpTypeInv.
(** shortName, OpType.cpp:35-64 *)
Definition shortName (t : optype) : string :=
  match t with
  | gGPhase => "GPh"
  | gSXdg => "sxd"
  | gSWAP => "sw"
  | giSWAP => "isw"
  | giSWAPdg => "isd"
  | gPeres => "pr"
  | gPeresdg => "prd"
  | gXXminusYY => "x-y"
  | gXXplusYY => "x+y"
  | gBarrier => "===="
  | gMeasure => "msr"
  | gReset => "rst"
  | _ => toString t
  end.
(** OP_NAME_TO_TYPE, OpType.cpp:66-137 *)
Definition nameTable : list (string * optype) :=
  [("none", gNone); ("gphase", gGPhase); ("i", gI); ("id", gI); ("h", gH); ("ch", gH); ("x", gX); ("cnot", gX);
   ("cx", gX); ("mcx", gX); ("y", gY); ("cy", gY); ("z", gZ); ("cz", gZ); ("s", gS); ("cs", gS); ("sdg", gSdg);
   ("csdg", gSdg); ("t", gT); ("ct", gT); ("tdg", gTdg); ("ctdg", gTdg); ("v", gV); ("vdg", gVdg); ("u", gU);
   ("cu", gU); ("u3", gU); ("cu3", gU); ("u2", gU2); ("cu2", gU2); ("p", gP); ("cp", gP); ("mcp", gP);
   ("phase", gP); ("cphase", gP); ("mcphase", gP); ("u1", gP); ("cu1", gP); ("sx", gSX); ("csx", gSX);
   ("sxdg", gSXdg); ("csxdg", gSXdg); ("rx", gRX); ("crx", gRX); ("ry", gRY); ("cry", gRY); ("rz", gRZ);
   ("crz", gRZ); ("swap", gSWAP); ("cswap", gSWAP); ("iswap", giSWAP); ("iswapdg", giSWAPdg); ("peres", gPeres);
   ("peresdg", gPeresdg); ("dcx", gDCX); ("ecr", gECR); ("rxx", gRXX); ("ryy", gRYY); ("rzz", gRZZ);
   ("rzx", gRZX); ("xx_minus_yy", gXXminusYY); ("xx_plus_yy", gXXplusYY); ("measure", gMeasure);
   ("reset", gReset); ("barrier", gBarrier); ("classic_controlled", gClassicControlled); ("compound", gCompound);
   ("move", gMove); ("aod_activate", gAodActivate); ("aod_deactivate", gAodDeactivate); ("aod_move", gAodMove)].
(** opTypeFromString, OpType.cpp:65-146; None: std::invalid_argument *)
Fixpoint lookup (l : list (string * optype)) (s : string) : option optype :=
  match l with [] => None | (n, t) :: r => if String.eqb n s then Some t else lookup r s end.
Definition opTypeFromString (s : string) : option optype := lookup nameTable s.
