(** Reference semantics for programs on matrices: a variable holds a height, a width and the entries as a function; there is no memory.
    [nd] tells whether the entries have a destructor. *)
From Coq Require Import List Arith NArith Bool.
From Verif Require Import PidModel MatModel ViewModel ViewSpec HeapModel.
Import ListNotations.
Open Scope nat_scope.

(** Outcomes: [SBig] is a program that asks for a matrix with 2^16 or more rows or columns, of which nothing is claimed (C30). *)
Inductive outcome (A : Type) := SOk (a : A) | SPanic | SUndef | SReject | SBig.
Arguments SOk {A}. Arguments SPanic {A}. Arguments SUndef {A}. Arguments SReject {A}. Arguments SBig {A}.
Definition obnd {A B} (x : outcome A) (f : A -> outcome B) : outcome B :=
  match x with SOk a => f a | SPanic => SPanic | SUndef => SUndef | SReject => SReject | SBig => SBig end.
Notation "'ds' x <- e ; k" := (obnd e (fun x => k)) (at level 200, x pattern, e at level 100, k at level 200, right associativity).

Section Spec.
  Context {T : Type} {O : Ops T}.
  Variable nd : bool.

  Record smat := SMat { sm_h : nat; sm_w : nat; sm_f : nat -> nat -> T }.
  (** What a view shows. *)
  Definition look (M : smat) (r : rview) : smat := SMat (rv_h r) (rv_w r) (fun i j => let (a, b) := rv_at r i j in sm_f M a b).
  (** The matrix after the part shown by [r] has been replaced by the entries [g]. *)
  Definition paste (M : smat) (r : rview) (g : nat -> nat -> T) : smat :=
    SMat (sm_h M) (sm_w M) (fun a b =>
      match find (fun ij => let (c, d) := rv_at r (fst ij) (snd ij) in (a =? c) && (b =? d)) (cells (rv_h r) (rv_w r)) with
      | Some ij => g (fst ij) (snd ij)
      | None => sm_f M a b
      end).
  Definition row_times_col (A B : smat) (i j : nat) : T := fold_left tadd (map (fun k => tmul (sm_f A i k) (sm_f B k j)) (seq 0 (sm_w A))) t0.

  (** The variables, and the number of values whose destructor never ran. *)
  Record sstate := SState { s_vars : list (option smat); s_lost : nat }.
  Definition svar (st : sstate) (x : nat) : outcome smat := match nth_error (s_vars st) x with Some (Some M) => SOk M | _ => SReject end.
  Definition sview (st : sstate) (x : nat) (ops : list vop) : outcome (smat * rview) :=
    ds M <- svar st x; match rv_run (rv_full (sm_h M) (sm_w M)) ops with Some r => SOk (M, r) | None => SPanic end.
  Definition sshared (st : sstate) (a : operand) : outcome smat := let (x, ops) := a in ds (M, r) <- sview st x ops; SOk (look M r).
  Definition splace (a : place) : nat := let (x, _) := a in x.
  Definition sapart (x : nat) (b : operand) : outcome unit := let (y, _) := b in if x =? y then SReject else SOk tt.

  (** A new variable.  No memory can be asked for without entries; when the entries are put into fresh memory by assignment ([asg]) and have
      a destructor, it runs on a value that does not exist. *)
  Definition sized (n m : nat) : outcome unit :=
    if n * m =? 0 then SUndef else if (N.of_nat n <? 2 ^ 16)%N && (N.of_nat m <? 2 ^ 16)%N then SOk tt else SBig.
  Definition make (st : sstate) (asg : bool) (n m : nat) (f : nat -> nat -> T) : outcome sstate :=
    ds _ <- sized n m; if asg && nd then SUndef else SOk (SState (s_vars st ++ [Some (SMat n m f)]) (s_lost st)).
  Definition same_size (A B : smat) : bool := (sm_h A =? sm_h B) && (sm_w A =? sm_w B).
  (** A change in place: the view shows [g] afterwards. *)
  Definition change (st : sstate) (a : place) (ok : smat -> outcome unit) (g : smat -> nat -> nat -> T) : outcome sstate :=
    ds (M, r) <- sview st (splace a) (the_ops a); ds _ <- ok (look M r);
    SOk (SState (lset (s_vars st) (splace a) (Some (paste M r (g (look M r))))) (s_lost st)).
  Definition panic_unless (b : bool) : outcome unit := if b then SOk tt else SPanic.
  (** The temporary of a row or column operation is assigned to fresh memory. *)
  Definition undef_if_destructor : outcome unit := if nd then SUndef else SOk tt.

  Definition sstep (st : sstate) (s : stmt T) : outcome sstate :=
    match s with
    | SFromArray [] | SFromArray ([] :: _) => SPanic
    | SFromArray (((_ :: _) as r0 :: _) as v) =>
        ds _ <- sized (length v) (length r0);
        if nd then SUndef else
        if forallb (fun r => length r0 <=? length r) v then make st true (length v) (length r0) (fun i j => nth j (nth i v []) t0) else SPanic
    | SZero n m => ds _ <- panic_unless ((0 <? n) && (0 <? m)); make st false n m (fun _ _ => t0)
    | SIdentity n => ds _ <- panic_unless (0 <? n); make st false n n (fun i j => if i =? j then t1 else t0)
    | SAsMatrix a => ds A <- sshared st a; make st false (sm_h A) (sm_w A) (sm_f A)
    | SAdd a b => ds A <- sshared st a; ds B <- sshared st b; ds _ <- panic_unless (same_size A B);
        make st true (sm_h A) (sm_w A) (fun i j => tadd (sm_f A i j) (sm_f B i j))
    | SSub a b => ds A <- sshared st a; ds B <- sshared st b; ds _ <- panic_unless (same_size A B);
        make st true (sm_h A) (sm_w A) (fun i j => tsub (sm_f A i j) (sm_f B i j))
    | SMul a b => ds A <- sshared st a; ds B <- sshared st b; ds _ <- sized (sm_h A) (sm_w B);
        ds _ <- panic_unless ((0 <? sm_w A) && (sm_w A =? sm_h B)); make st true (sm_h A) (sm_w B) (row_times_col A B)
    | SScale a c => ds A <- sshared st a; make st true (sm_h A) (sm_w A) (fun i j => tmul (sm_f A i j) c)
    | SSet a i j x => change st a (fun V => panic_unless ((i <? sm_h V) && (j <? sm_w V)))
        (fun V k l => if (k =? i) && (l =? j) then x else sm_f V k l)
    | SAddAssign x b => ds _ <- sapart x b; ds B <- sshared st b;
        change st (Place x []) (fun V => panic_unless (same_size V B)) (fun V i j => tadd (sm_f V i j) (sm_f B i j))
    | SSubAssign x b => ds _ <- sapart x b; ds B <- sshared st b;
        change st (Place x []) (fun V => panic_unless (same_size V B)) (fun V i j => tsub (sm_f V i j) (sm_f B i j))
    | SScaleAssign a c => change st a (fun _ => SOk tt) (fun V i j => tmul (sm_f V i j) c)
    | SWrite a b => ds _ <- sapart (splace a) b; ds B <- sshared st b;
        change st a (fun V => panic_unless (same_size V B)) (fun _ i j => sm_f B i j)
    | SSwapRows a p q => change st a (fun V => panic_unless ((sm_w V =? 0) || (p <? sm_h V) && (q <? sm_h V)))
        (fun V i j => if i =? p then sm_f V q j else if i =? q then sm_f V p j else sm_f V i j)
    | SSwapCols a p q => change st a (fun V => panic_unless ((sm_h V =? 0) || (p <? sm_w V) && (q <? sm_w V)))
        (fun V i j => if j =? p then sm_f V i q else if j =? q then sm_f V i p else sm_f V i j)
    | SRowOp a p q c => change st a
        (fun V => ds _ <- panic_unless ((q <? sm_h V) && (0 <? sm_w V)); ds _ <- undef_if_destructor; panic_unless (p <? sm_h V))
        (fun V i j => if i =? p then tadd (sm_f V i j) (tmul (sm_f V q j) c) else sm_f V i j)
    | SColOp a p q c => change st a
        (fun V => ds _ <- panic_unless ((q <? sm_w V) && (0 <? sm_h V)); ds _ <- undef_if_destructor; panic_unless (p <? sm_w V))
        (fun V i j => if j =? p then tadd (sm_f V i j) (tmul (sm_f V i q) c) else sm_f V i j)
    | STranspose x => ds M <- svar st x; SOk (SState (lset (s_vars st) x (Some (SMat (sm_w M) (sm_h M) (fun i j => sm_f M j i)))) (s_lost st))
    | SDrop x => ds M <- svar st x; SOk (SState (lset (s_vars st) x None) (s_lost st + if nd then sm_h M * sm_w M else 0))
    end.
  Fixpoint srun_from (prog : list (stmt T)) (st : sstate) : outcome sstate :=
    match prog with [] => SOk st | s :: t => ds st' <- sstep st s; srun_from t st' end.
  Definition srun (prog : list (stmt T)) : outcome sstate := srun_from prog (SState [] 0).

  (** The memory holds the variables: the same ones are alive, every entry can be read and is the right one, out of range reading panics,
      every block that is not freed belongs to a living variable, and the destructors are accounted for. *)
  Definition holds_var (h : heap T) (o : option owned) (M : option smat) : Prop :=
    match o, M with
    | None, None => True
    | Some o, Some M => o_size (o_shape o) = (sm_h M, sm_w M) /\
        forall i j, rd h (deref o) i j = if (i <? sm_h M) && (j <? sm_w M) then Ok (sm_f M i j) else Panic
    | _, _ => False
    end.
  Definition living {A} (l : list (option A)) : nat := length (filter (fun x => match x with Some _ => true | None => false end) l).
  Definition holds (m : mstate T) (st : sstate) : Prop :=
    Forall2 (holds_var (m_heap m)) (m_vars m) (s_vars st) /\
    living (h_blocks (m_heap m)) = living (m_vars m) /\
    h_lost (m_heap m) = s_lost st.
  Definition agree (r : res (mstate T)) (o : outcome sstate) : Prop :=
    match o, r with
    | SOk st, Ok m => holds m st
    | SPanic, Panic | SUndef, Undef | SReject, Reject => True
    | SBig, _ => True
    | _, _ => False
    end.
End Spec.
Arguments smat : clear implicits.
Arguments sstate : clear implicits.
