(** Model of the vectors of a monolithic block system (petsc/block_assembly.hpp and
    petsc/utils.hpp): the copies between the fields and the vectors.

    [out] is what [reset] leaves: the blocks with their shifts. A field is its array. A copy
    outside of the vector, which PETSc refuses, is [None]. *)
From Coq Require Import QArith.
From Verif Require Import Base SubsetModel ReconModel AssemblyModel BlockModel.
Open Scope nat_scope.

(** The loop for_each_assembly_op (block_assembly.hpp L61-88) over the placed blocks *)
Definition for_each_placed (cols : nat) (out : list (block * (Z * Z))) : list ((block * (Z * Z)) * (nat * nat)) :=
  map (fun '(i, b) => (b, (i / cols, i mod cols))) (combine (seq 0 (length out)) out).

(** utils.hpp L41-55: the values of [f] from position [shift] on *)
Definition copy_in (f x : list Q) (shift : Z) : option (list Q) :=
  if ((0 <=? shift) && (shift + Z.of_nat (length f) <=? Z.of_nat (length x)))%Z then
    Some (firstn (Z.to_nat shift) x ++ f ++ skipn (Z.to_nat shift + length f) x)
  else None.
(** utils.hpp L93-111: [n] values from position [shift] on *)
Definition copy_out (shift : Z) (x : list Q) (n : nat) : option (list Q) :=
  if ((0 <=? shift) && (shift + Z.of_nat n <=? Z.of_nat (length x)))%Z then Some (firstn n (skipn (Z.to_nat shift) x)) else None.

(** The loops over the fields with their number i *)
Fixpoint put_fields (place : nat -> list Q -> list Q -> option (list Q)) (i : nat) (fields : list (list Q)) (x : list Q) : option (list Q) :=
  match fields with
  | [] => Some x
  | f :: fields => let* x := place i f x in put_fields place (S i) fields x
  end.
(** L701-722: one source, then all *)
Definition place_rhs (cols : nat) (out : list (block * (Z * Z))) (i : nat) (s b : list Q) : option (list Q) :=
  fold_opt (fun b '((_, (row_shift, _)), (row, col)) => if Nat.eqb col 0 && Nat.eqb row i then copy_in s b row_shift else Some b) (for_each_placed cols out) b.
Definition create_rhs_vector (cols : nat) (out : list (block * (Z * Z))) (sources : list (list Q)) : option (list Q) :=
  put_fields (place_rhs cols out) 0 sources (repeat 0%Q (Z.to_nat (total_rows cols (map fst out)))).
(** L724-744 *)
Definition place_field (cols : nat) (out : list (block * (Z * Z))) (i : nat) (f x : list Q) : option (list Q) :=
  fold_opt (fun x '((_, (_, col_shift)), (row, col)) => if Nat.eqb row 0 && Nat.eqb col i then copy_in f x col_shift else Some x) (for_each_placed cols out) x.
Definition create_applicable_vector (cols : nat) (out : list (block * (Z * Z))) (fields : list (list Q)) : option (list Q) :=
  put_fields (place_field cols out) 0 fields (repeat 0%Q (Z.to_nat (total_cols cols (map fst out)))).

(** L813-823: the new values of the unknowns of the first row of blocks; [sizes] are the sizes of
    the unknowns of the columns. *)
Definition update_unknowns (cols : nat) (out : list (block * (Z * Z))) (sizes : list nat) (x : list Q) : option (list (list Q)) :=
  all_opt (fun '((_, (_, col_shift)), (_, col)) => copy_out col_shift x (nth col sizes 0)) (filter (fun '(_, (row, _)) => Nat.eqb row 0) (for_each_placed cols out)).

(** L845-862: the indices of the unknowns, from the blocks with row == 1; [None] for a column
    without such a block, whose entry of the array is not initialized. *)
Definition create_fields_IS (cols : nat) (out : list (block * (Z * Z))) : option (list (list Z)) :=
  all_opt (fun c => 
    match find (fun '(_, (row, col)) => Nat.eqb row 1 && Nat.eqb col c) (for_each_placed cols out) with
    | Some ((b, (_, col_shift)), _) => Some (map (fun i => col_shift + Z.of_nat i)%Z (seq 0 (Z.to_nat (b_cols b))))
    | None => None
    end) (seq 0 cols).

(** L825-843: the new values of the result fields; [f] is a field before. *)
Definition result_field (cols : nat) (out : list (block * (Z * Z))) (b : list Q) (i : nat) (f : list Q) : option (list Q) :=
  fold_opt (fun f '((_, (row_shift, _)), (row, col)) => if Nat.eqb col 0 && Nat.eqb row i then copy_out row_shift b (length f) else Some f) (for_each_placed cols out) f.
Definition update_result_fields (cols : nat) (out : list (block * (Z * Z))) (b : list Q) (fields : list (list Q)) : option (list (list Q)) :=
  all_opt (fun '(i, f) => result_field cols out b i f) (combine (seq 0 (length fields)) fields).
