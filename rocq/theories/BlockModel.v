(** Model of the sizes and positions of the blocks of a monolithic block matrix
    (include/samurai/petsc/block_assembly.hpp).

    The blocks are in a tuple, row by row; [cols] is the number of blocks in a row of blocks.
    A block is its own matrix_rows(), matrix_cols() and fit_block_dimensions() (true for the
    zero blocks, petsc/zero_block_assembly.hpp, whose size is set from the other blocks).
    exit(EXIT_FAILURE) is [None]. What the blocks assemble is in AssemblyModel, with the
    shifts in the layout. The nested matrices (BlockAssembly<false>) have no shifts. *)
From Coq Require Import QArith.
From Verif Require Import Base LcaModel SubsetModel NumModel GhostModel FluxModel ReconModel LinFluxModel AssemblyModel.
Open Scope Z_scope.

Record block := mkBlock { b_fit : bool; b_rows : Z; b_cols : Z }.

(** L62-88: for_each_assembly_op gives each block with its row and its column. *)
Definition for_each_block (cols : nat) (bs : list block) : list (block * (nat * nat)) :=
  map (fun '(i, b) => (b, (i / cols, i mod cols)%nat)) (combine (seq 0 (length bs)) bs).

(** L98-129, for one row of blocks: the size is that of the first block which does not adapt,
    as long as it is 0; then the others are set or compared. *)
Definition block_rows (cols r : nat) (bs : list block) : Z :=
  fold_left (fun block_rows '(b, (row, _)) => if Nat.eqb row r && ((block_rows =? 0) && negb (b_fit b)) then b_rows b else block_rows) (for_each_block cols bs) 0.
Definition set_row (cols r : nat) (bs : list block) : option (list block) :=
  let size := block_rows cols r bs in
  all_opt (fun '(b, (row, _)) =>
    if Nat.eqb row r then
      if b_fit b then Some (mkBlock true size (b_cols b)) else if b_rows b =? size then Some b else None
    else Some b) (for_each_block cols bs).
(** L131-163, for one column of blocks *)
Definition block_cols (cols c : nat) (bs : list block) : Z :=
  fold_left (fun block_cols '(b, (_, col)) => if Nat.eqb col c && ((block_cols =? 0) && negb (b_fit b)) then b_cols b else block_cols) (for_each_block cols bs) 0.
Definition set_col (cols c : nat) (bs : list block) : option (list block) :=
  let size := block_cols cols c bs in
  all_opt (fun '(b, (_, col)) =>
    if Nat.eqb col c then
      if b_fit b then Some (mkBlock true (b_rows b) size) else if b_cols b =? size then Some b else None
    else Some b) (for_each_block cols bs).
(** L95-164 *)
Definition check_and_set_sizes (rows cols : nat) (bs : list block) : option (list block) :=
  let* bs := fold_opt (fun bs r => set_row cols r bs) (seq 0 rows) bs in
  fold_opt (fun bs c => set_col cols c bs) (seq 0 cols) bs.

(** L508-522: row_shift and col_shift of each block. *)
Definition shifts (cols : nat) (bs : list block) : list (Z * Z) :=
  fst (fold_left (fun '(out, (row_shift, col_shift)) '(b, (_, col)) =>
    (out ++ [(row_shift, col_shift)], if Nat.eqb col (cols - 1) then (row_shift + b_rows b, 0) else (row_shift, col_shift + b_cols b)))
    (for_each_block cols bs) ([], (0, 0))).
(** L497-523 *)
Definition reset (rows cols : nat) (bs : list block) : option (list (block * (Z * Z))) :=
  let* bs := check_and_set_sizes rows cols bs in Some (combine bs (shifts cols bs)).

(** L527-553 *)
Definition total_rows (cols : nat) (bs : list block) : Z :=
  fold_left (fun total '(b, (row, col)) => if Nat.eqb row col then total + b_rows b else total) (for_each_block cols bs) 0.
Definition total_cols (cols : nat) (bs : list block) : Z :=
  fold_left (fun total '(b, (row, col)) => if Nat.eqb row col then total + b_cols b else total) (for_each_block cols bs) 0.
