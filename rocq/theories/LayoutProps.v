(** C84: layout comments. *)
From Coq Require Import List Arith Bool NArith Ascii String Permutation Lia.
From Verif Require Import IRModel QasmIfModel CircModel LayoutModel LayoutSpec LayoutProofs.
Import ListNotations.
Local Open Scope list_scope.

(** The layout and the outputs are read back with the physical qubits numbered
    consecutively, if the logical outputs are 0, 1, ..., k - 1 for some k > 0. *)
Theorem C84_layout_partial : forall lay out n k,
  ordered lay -> Permutation (map snd lay) (seq 0 n) -> 0 < n -> (N.of_nat n <= 2 ^ 32)%N ->
  ordered out -> incl (map fst out) (map fst lay) -> Permutation (map snd out) (seq 0 k) -> 0 < k ->
  exists lay' out', import_layout n (dump_layout lay out) = ROk (lay', out') /\ renumbered lay out lay' out'.
Proof. exact layout_read_back. Qed.
Print Assumptions C84_layout_partial.
Theorem C84_unchanged_partial : forall lay out n k,
  map fst lay = seq 0 n -> Permutation (map snd lay) (seq 0 n) -> 0 < n -> (N.of_nat n <= 2 ^ 32)%N ->
  ordered out -> incl (map fst out) (map fst lay) -> Permutation (map snd out) (seq 0 k) -> 0 < k ->
  import_layout n (dump_layout lay out) = ROk (lay, out).
Proof. exact layout_unchanged. Qed.
Print Assumptions C84_unchanged_partial.

(* twelve qubits, so numbers of two digits; qubit 5 has been removed *)
Definition lay12 : perm := [(0, 3); (1, 11); (2, 0); (3, 10); (4, 1); (6, 2); (7, 4); (8, 5); (9, 6); (10, 7); (11, 8); (12, 9)].
Example C84_text_ex : map string_of_list_ascii (dump_layout lay12 [(6, 1); (12, 0)]) = ["// i 2 4 5 0 6 7 8 9 10 11 3 1"; "// o 11 5"]%string.
Proof. reflexivity. Qed.
Example C84_read_ex : import_layout 12 (dump_layout lay12 [(6, 1); (12, 0)]) =
  ROk ([(0, 3); (1, 11); (2, 0); (3, 10); (4, 1); (5, 2); (6, 4); (7, 5); (8, 6); (9, 7); (10, 8); (11, 9)], [(5, 1); (11, 0)]).
Proof. vm_compute. reflexivity. Qed.

(** A comment counts as layout or as output only if it contains the letter, a space
    and a digit; all others are ignored. *)
Theorem C84_recognised : forall s,
  (classify s = CInitial <-> contains "i" s) /\
  (classify s = COutput <-> ~ contains "i" s /\ contains "o" s).
Proof. exact classify_iff. Qed.
Print Assumptions C84_recognised.
Theorem C84_ignored : forall ls i o, (forall s, In s ls -> ~ contains "i" s /\ ~ contains "o" s) -> visit ls i o = ROk (i, o).
Proof. exact visit_ignored. Qed.
Print Assumptions C84_ignored.
Example C84_ignored_ex : map classify (map list_ascii_of_string ["// pi3 o3"; "// qubit i  2"; "// o 12"; "// io 3 i 4"]%string) = [COther; COther; COutput; CInitial].
Proof. reflexivity. Qed.

Definition id2 : perm := [(0, 0); (1, 1)].
(* no outputs: the line is not recognised, and all qubits are outputs again *)
Theorem C84_no_output_refuted : import_layout 2 (dump_layout id2 []) = ROk (id2, id2).
Proof. vm_compute. reflexivity. Qed.
Print Assumptions C84_no_output_refuted.
(* logical output 1 is read back as logical output 0 *)
Theorem C84_gap_refuted : import_layout 2 (dump_layout id2 [(1, 1)]) = ROk (id2, [(1, 0)]).
Proof. vm_compute. reflexivity. Qed.
Print Assumptions C84_gap_refuted.
Definition line (s : string) : text := list_ascii_of_string s.
(* ordinary comments are taken for layouts, whatever the number of qubits *)
Theorem C84_comment_refuted :
  import_layout 2 [line "// rotate by pi 3 times"] = ROk ([(3, 0)], id2) /\
  import_layout 2 [line "// move 1 into 0"] = ROk (id2, [(0, 1); (1, 0)]) /\
  import_layout 2 (dump_layout id2 id2 ++ [line "// rotate by pi 3 times"]) = RError.
Proof. split; [| split]; vm_compute; reflexivity. Qed.
Print Assumptions C84_comment_refuted.
(* qubits are neither checked for their range nor for repetitions; larger numbers wrap around *)
Theorem C84_unchecked_refuted :
  import_layout 2 [line "// i 7 0"] = ROk ([(0, 1); (7, 0)], id2) /\
  import_layout 2 [line "// i 0 0"] = ROk ([(0, 0)], id2) /\
  import_layout 2 [line "// i 4294967296 1"] = ROk (id2, id2).
Proof. split; [| split]; vm_compute; reflexivity. Qed.
Print Assumptions C84_unchecked_refuted.
