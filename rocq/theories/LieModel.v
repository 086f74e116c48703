(** Model of navlie/lib/states.py: VectorState and MatrixLieGroupState.

    The pymlg group class is given by its dof d, the size k of its matrices and the functions
    Exp, Log, inverse, left/right_jacobian(_inv), all parameters.  Strings other than "left" and
    "right" are [DirOther].  Arrays of dimension 3 and above are not modelled. *)
From mathcomp Require Import all_ssreflect all_algebra.
From Verif Require Import Base.
Set Implicit Arguments.
Unset Strict Implicit.
Unset Printing Implicit Defensive.
Import GRing.Theory.
Local Open Scope ring_scope.

Inductive dirname := DirRight | DirLeft | DirOther.

(** what can be passed as [value]: a Python number, or an array with 0, 1 or 2 dimensions (a list
    is converted by np.array, states.py:96-97).  A matrix is given by its rows. *)
Inductive pyval (R : Type) := PNum of R | PArr0 of R | PArr1 of seq R | PArr2 (m n : nat) of 'M[R]_(m, n).

Section Vector.
Variable R : ringType.
Variables (S I : Type).          (* stamps and state_ids *)
(** VectorState, states.py:21-55 *)
Record vstate := VState { vval : seq R; vstamp : S; vid : I }.
Definition ravel m n (M : 'M[R]_(m, n)) : seq R := [seq M i j | i <- enum 'I_m, j <- enum 'I_n].
(** 26-34: np.array(value, dtype=float64).ravel() *)
Definition vector_init (v : pyval R) (t : S) (i : I) : vstate :=
  VState (match v with PNum x | PArr0 x => [:: x] | PArr1 s => s | PArr2 _ _ M => ravel M end) t i.
(** 36-42 *)
Definition vector_plus (x : vstate) (dx : seq R) : result vstate :=
  if size dx == size (vval x) then Ok (VState [seq p.1 + p.2 | p <- zip (vval x) dx] (vstamp x) (vid x))
  else Raise ValueError.
(** 44-46: numpy broadcasting of the subtraction, then reshape to the size of self *)
Definition vector_minus (y x : vstate) : result (seq R) :=
  if size (vval x) == size (vval y) then Ok [seq p.1 - p.2 | p <- zip (vval y) (vval x)]
  else if size (vval x) == 1%N then Ok [seq a - nth 0 (vval x) 0 | a <- vval y]
  else Raise ValueError.
(** 48-52 *)
Definition vector_jacobian (x : vstate) : 'M[R]_(size (vval x)) := 1%:M.
(** 54-55 *)
Definition vector_copy (x : vstate) : vstate := VState (vval x) (vstamp x) (vid x).
End Vector.

Section Lie.
Variable R : ringType.
Variables (S I : Type).
Variables (d k : nat).
Variables (Exp : 'cV[R]_d -> 'M[R]_k) (Log : 'M[R]_k -> 'cV[R]_d) (ginv : 'M[R]_k -> 'M[R]_k).
Variables (Jl Jr Jlinv Jrinv : 'cV[R]_d -> 'M[R]_d).
(** MatrixLieGroupState; the value is any square matrix the constructor lets through *)
Record lstate := LState { lsize : nat; lval : 'M[R]_lsize; lstamp : S; lid : I; ldir : dirname }.
(** exponential coordinates in row-major order *)
Definition coords (s : seq R) : 'cV[R]_d := \col_i nth 0 s i.
(** states.py:96-115.  A number has no .size (AttributeError); shape[1], or shape[0], of an array
    of lower dimension raises IndexError; a square matrix is kept as it is, whatever its size *)
Definition lie_init (v : pyval R) (t : S) (i : I) (dir : dirname) : result lstate :=
  match v with
  | PNum _ => Raise AttributeError
  | PArr0 x => if d == 1%N then Ok (LState (Exp (coords [:: x])) t i dir) else Raise IndexError
  | PArr1 s => if size s == d then Ok (LState (Exp (coords s)) t i dir) else Raise IndexError
  | PArr2 m n M =>
      if (m * n)%N == d then Ok (LState (Exp (coords (ravel M))) t i dir)
      else if @eqP _ n m is ReflectT e then Ok (LState (castmx (erefl m, e) M) t i dir) else Raise ValueError
  end.
(** SO2State accepts a number, states.py:236-239 *)
Definition so2_init (v : pyval R) t i dir :=
  lie_init (if v is PNum x then PArr2 (const_mx x : 'M[R]_(1, 1)) else v) t i dir.
(** the value as an operand of the k x k matrices of the group: numpy's @ raises ValueError on
    other sizes *)
Definition as_k (x : lstate) : result 'M[R]_k :=
  if @eqP _ (lsize x) k is ReflectT e then Ok (castmx (e, e) (lval x)) else Raise ValueError.
(** 136-152: copies go through the constructor *)
Definition lie_copy (x : lstate) : result lstate := lie_init (PArr2 (lval x)) (lstamp x) (lid x) (ldir x).
(** 117-125 *)
Definition lie_plus (x : lstate) (dx : 'cV[R]_d) : result lstate :=
  new <~ lie_copy x ;;
  match ldir x with
  | DirRight => X <~ as_k x ;; Ok (LState (X *m Exp dx) (lstamp new) (lid new) (ldir new))
  | DirLeft => X <~ as_k x ;; Ok (LState (Exp dx *m X) (lstamp new) (lid new) (ldir new))
  | DirOther => Raise ValueError
  end.
(** 127-134; the direction of x is not looked at *)
Definition lie_minus (y x : lstate) : result 'cV[R]_d :=
  match ldir y with
  | DirRight => X <~ as_k x ;; Y <~ as_k y ;; Ok (Log (ginv X *m Y))
  | DirLeft => X <~ as_k x ;; Y <~ as_k y ;; Ok (Log (Y *m ginv X))
  | DirOther => Raise ValueError
  end.
(** 154-161 *)
Definition lie_plus_jacobian (x : lstate) (dx : 'cV[R]_d) : result 'M[R]_d :=
  match ldir x with DirRight => Ok (Jr dx) | DirLeft => Ok (Jl dx) | DirOther => Raise ValueError end.
(** 163-171 *)
Definition lie_minus_jacobian (y x : lstate) : result 'M[R]_d :=
  dx <~ lie_minus y x ;;
  match ldir y with DirRight => Ok (Jrinv dx) | DirLeft => Ok (Jlinv dx) | DirOther => Raise ValueError end.
(** 183-186 *)
Definition lie_dot (x y : lstate) : result lstate :=
  new <~ lie_copy x ;; X <~ as_k x ;; Y <~ as_k y ;; Ok (LState (X *m Y) (lstamp new) (lid new) (ldir new)).
End Lie.

(** jacobian_from_blocks of SE2State, SE3State (states.py:395-408, 460-473) and SE23State
    (606-623): the blocks given as keywords, in the order of the exponential coordinates, with
    their widths.  [None]: the keyword is left out *)
Section Blocks.
Variable R : ringType.
(** the loop over the keywords in their order leaves [dim] at the rows of the last one given *)
Definition last_dim (kw : seq (option (arr R))) : result nat :=
  if pmap id kw is a :: r then Ok (nrow (last a r)) else Raise UnboundLocalError.
Definition ahcat (A B : arr R) : result (arr R) :=
  if nrow A == nrow B then Ok (Arr (nrow A) (ncol A + ncol B) (fun i j => if (j < ncol A)%N then ent A i j else ent B i (j - ncol A)%N))
  else Raise ValueError.
Definition orzeros (dim w : nat) (A : option (arr R)) : arr R := odflt (azeros R dim w) A.
Definition from_blocks2 (wa wp : nat) (attitude position : option (arr R)) : result (arr R) :=
  dim <~ last_dim [:: attitude; position] ;;
  ahcat (orzeros dim wa attitude) (orzeros dim wp position).
Definition se2_from_blocks := from_blocks2 1 2.
Definition se3_from_blocks := from_blocks2 3 3.
(** np.block([attitude, velocity, position]) *)
Definition se23_from_blocks (attitude position velocity : option (arr R)) : result (arr R) :=
  dim <~ last_dim [:: attitude; position; velocity] ;;
  AV <~ ahcat (orzeros dim 3 attitude) (orzeros dim 3 velocity) ;;
  ahcat AV (orzeros dim 3 position).
End Blocks.

(** random(): the class of the object returned by <class>.random(), states.py:249-253, 337-341,
    410-414, 540-544 (SE3State.random returns an SE2State), 625-629 *)
Inductive lclass := CSO2 | CSO3 | CSE2 | CSE3 | CSE23.
Definition class_dof (c : lclass) : nat := match c with CSO2 => 1 | CSO3 => 3 | CSE2 => 3 | CSE3 => 6 | CSE23 => 9 end.
Definition random_class (c : lclass) : lclass := match c with CSE3 => CSE2 | c => c end.
