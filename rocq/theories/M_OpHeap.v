(** Model of the sharing of array buffers between DenseOperator objects, matrix.py l.698-844, 961-970,
    1281-1307.  A numpy array held in [self.data] is a buffer plus a flag telling whether it is viewed
    transposed (self.data.T is a view on the same buffer).  Values are computed by the functions of
    M_Matrix.  Operators are referred to by object number.

    Simplifications: the only views arising in matrix.py are whole-array and transposed ones;
    numpy's in-place ufuncs and matmul(out=) buffer overlapping operands, so the new value is computed
    from the old contents. *)
Require Import List Arith Lia Bool.
From Verif Require Import LibBase LibRing LibArr LibCplx LibMat M_Matrix.
Import ListNotations.
Open Scope res_scope.
Set Implicit Arguments.

Section Heap.
Variable F : OField.
Notation C := (cplx F).
Notation S := (CStar F).

Record obj := mkobj { o_buf : nat; o_tr : bool }.
Record heap := mkheap { bufs : list (op F); objs : list obj }.

Definition no_op : op F := Arr [] [].
Definition getbuf (h : heap) (b : nat) : op F := nth b (bufs h) no_op.
(** self.data *)
Definition view (h : heap) (o : obj) : op F :=
  if o_tr o then mtr (S:=S) (getbuf h (o_buf o)) else getbuf h (o_buf o).
Definition getobj (h : heap) (k : nat) : res obj :=
  match nth_error (objs h) k with Some o => Ok o | None => Err UnboundLocalError end.
Definition valof (h : heap) (k : nat) : res (op F) := o <- getobj h k ;; Ok (view h o).

(** l[i] = x *)
Fixpoint lset {T} (l : list T) (i : nat) (x : T) : list T :=
  match l, i with [], _ => [] | _ :: l', 0 => x :: l' | y :: l', Datatypes.S j => y :: lset l' j x end.

(** DenseOperator(array): a new object on a new buffer *)
Definition alloc (h : heap) (M : op F) : heap :=
  mkheap (bufs h ++ [M]) (objs h ++ [mkobj (length (bufs h)) false]).
(** writing the data of an object through its view *)
Definition store (h : heap) (o : obj) (M : op F) : heap :=
  mkheap (lset (bufs h) (o_buf o) (if o_tr o then mtr (S:=S) M else M)) (objs h).

Inductive binop := BAdd | BSub | BMul | BKron.
Definition bin (b : binop) (A B : op F) : res (op F) :=
  match b with BAdd => op_add A (ODense B) | BSub => op_sub A (ODense B)
             | BMul => op_mul A (ODense B) | BKron => op_kron A (ODense B) end.
Definition bin_in (b : binop) (A B : op F) : res (op F) :=
  match b with BAdd => op_iadd A (ODense B) | BSub => op_isub A (ODense B)
             | BMul => op_imul A (ODense B) | BKron => Err NotImplementedError end.

Inductive instr :=
| INew (M : op F)                     (* DenseOperator(np.array(...)), l.706-707 *)
| IWrap (a : nat)                     (* DenseOperator(a), l.710-711: shares the buffer *)
| ICopy (a : nat)                     (* a.copy(), l.717-721 *)
| IBin (b : binop) (x y : nat)        (* x + y, x - y, x * y, x.kron(y): l.128, 268, 740, 961 *)
| IScale (a : nat) (c : C)            (* a * c and c * a, l.744-746, 760-762 *)
| IDiv (a : nat) (c : C)              (* a / c, l.792-795 *)
| IDag (a : nat)                      (* a.dag(), l.817-821 *)
| IConj (a : nat)                     (* a.conj(), l.829-832 *)
| ITrans (a : nat)                    (* a.transpose(), l.839-844 *)
| IBinIn (b : binop) (x y : nat)      (* x += y, x -= y, x *= y: l.723-790 *)
| IScaleIn (a : nat) (c : C)          (* a *= c, l.734-735 *)
| IDagIn (a : nat)                    (* a.dag(do_copy=False), l.822-825 *)
| IConjIn (a : nat)                   (* a.conj(do_copy=False), l.833-835 *)
| ITransIn (a : nat)                  (* a.transpose(do_copy=False), l.842-844 *)
| ISet (a i j : nat) (c : C).         (* a[i, j] = c, l.807-809 *)

(** the value produced by an out-of-place expression *)
Definition out_val (h : heap) (i : instr) : option (res (op F)) :=
  match i with
  | INew M => Some (Ok M)
  | ICopy a => Some (A <- valof h a ;; Ok (op_copy A))
  | IBin b x y => Some (A <- valof h x ;; B <- valof h y ;; bin b A B)
  | IScale a c => Some (A <- valof h a ;; op_mul A (OScal c))
  | IDiv a c => Some (A <- valof h a ;; op_truediv A (OScal c))
  | IDag a => Some (A <- valof h a ;; Ok (op_dag A))
  | IConj a => Some (A <- valof h a ;; Ok (op_conj A))
  | _ => None
  end.

Definition step (h : heap) (i : instr) : res heap :=
  match out_val h i with
  | Some r => M <- r ;; Ok (alloc h M)
  | None =>
    match i with
    | IWrap a => o <- getobj h a ;; Ok (mkheap (bufs h) (objs h ++ [o]))
    | ITrans a =>
        (* copy the data, then view the copy transposed *)
        A <- valof h a ;;
        Ok (mkheap (bufs h ++ [A]) (objs h ++ [mkobj (length (bufs h)) true]))
    | IBinIn b x y =>
        o <- getobj h x ;; B <- valof h y ;; M <- bin_in b (view h o) B ;; Ok (store h o M)
    | IScaleIn a c => o <- getobj h a ;; M <- op_imul (view h o) (OScal c) ;; Ok (store h o M)
    | IDagIn a =>
        o <- getobj h a ;;
        let h' := store h o (op_conj (view h o)) in
        Ok (mkheap (bufs h') (lset (objs h') a (mkobj (o_buf o) (negb (o_tr o)))))
    | IConjIn a => o <- getobj h a ;; Ok (store h o (op_conj (view h o)))
    | ITransIn a =>
        o <- getobj h a ;; Ok (mkheap (bufs h) (lset (objs h) a (mkobj (o_buf o) (negb (o_tr o)))))
    | ISet a i j c =>
        o <- getobj h a ;;
        let A := view h o in
        check Nat.ltb i (nr A) && Nat.ltb j (nc A) else IndexError ;;
        Ok (store h o (mk2 (nr A) (nc A) (fun i' j' => if Nat.eqb i' i && Nat.eqb j' j then c else mg A i' j')))
    | _ => Err NotImplementedError
    end
  end.

(** a program: an exception leaves the heap as it is (the caller may catch it and go on) *)
Fixpoint run (h : heap) (p : list instr) : heap :=
  match p with
  | [] => h
  | i :: p' => run (match step h i with Ok h' => h' | Err _ => h end) p'
  end.
End Heap.
Arguments INew {F}. Arguments IWrap {F}. Arguments ICopy {F}. Arguments IBin {F}. Arguments IScale {F}. Arguments IDiv {F}.
Arguments IDag {F}. Arguments IConj {F}. Arguments ITrans {F}. Arguments IBinIn {F}. Arguments IScaleIn {F}. Arguments IDagIn {F}.
Arguments IConjIn {F}. Arguments ITransIn {F}. Arguments ISet {F}.
