(** Theorems C32, C33, C39: the coefficient type is any commutative ring. *)
From Coq Require Import List Arith ZArith Bool Lia ZifyBool Ring_theory Ring InitialRing.
From Verif Require Import PidModel MatModel MatSpec MatProofs MatProofs2.
Import ListNotations.
Open Scope nat_scope.

Section Props.
  Context {T : Type} {O : Ops T}.
  Let mk_is_mat n m (f : nat -> nat -> T) : is_mat n m f (mk n m f). Proof. now apply mk_ent. Qed.
  Ltac to_mk A H := let n := fresh "n" in let m := fresh "m" in let f := fresh "f" in
    rewrite (wf_eq_mk A H) in *; set (n := nr A) in *; set (m := nc A) in *; set (f := ent A) in *; clearbody n m f;
    cbn [nr nc mk] in *.

  (** C32, entrywise *)
  Theorem C32_add : forall A B : mat T, wf A -> wf B -> nr A = nr B -> nc A = nc B ->
    exists C, madd A B = Some C /\ is_mat (nr A) (nc A) (fun i j => tadd (ent A i j) (ent B i j)) C.
  Proof.
    intros A B HA HB E1 E2. eexists. split; [|apply mk_is_mat]. rewrite (wf_eq_mk A HA), (wf_eq_mk B HB) at 1. rewrite <- E1, <- E2. unfold madd. rewrite mzip_mk. reflexivity.
  Qed.
  Theorem C32_sub : forall A B : mat T, wf A -> wf B -> nr A = nr B -> nc A = nc B ->
    exists C, msub A B = Some C /\ is_mat (nr A) (nc A) (fun i j => tsub (ent A i j) (ent B i j)) C.
  Proof.
    intros A B HA HB E1 E2. eexists. split; [|apply mk_is_mat]. rewrite (wf_eq_mk A HA), (wf_eq_mk B HB) at 1. rewrite <- E1, <- E2. unfold msub. rewrite mzip_mk. reflexivity.
  Qed.
  Theorem C32_scale : forall (A : mat T) c, wf A ->
    exists C, mscale A c = Some C /\ mscale_assign A c = Some C /\ is_mat (nr A) (nc A) (fun i j => tmul (ent A i j) c) C.
  Proof.
    intros A c HA. eexists. split; [|split; [|apply mk_is_mat]]; rewrite (wf_eq_mk A HA) at 1; [now rewrite mscale_mk|now rewrite mscale_assign_mk].
  Qed.
  Theorem C32_mul : forall A B : mat T, wf A -> wf B -> nc A = nr B ->
    exists C, mmul A B = Some C /\ is_mat (nr A) (nc B) (fun i j => sum (nc A) (fun k => tmul (ent A i k) (ent B k j))) C.
  Proof.
    intros A B HA HB E1. eexists. split; [|apply mk_is_mat]. rewrite (wf_eq_mk A HA), (wf_eq_mk B HB) at 1. rewrite <- E1. rewrite mmul_mk. reflexivity.
  Qed.
  Theorem C32_dot : forall A B : mat T, wf A -> wf B ->
    (nr A = 1 /\ nc B = 1 /\ nc A = nr B -> mdot A B = Some (sum (nc A) (fun k => tmul (ent A 0 k) (ent B k 0)))) /\
    (~ (nr A = 1 /\ nc B = 1 /\ nc A = nr B) -> mdot A B = None).
  Proof.
    intros A B HA HB. split.
    - intros (E1 & E2 & E3). rewrite (wf_eq_mk A HA), (wf_eq_mk B HB) at 1. rewrite E1, E2, <- E3. now rewrite mdot_mk.
    - intros H. unfold mdot. destruct (_ && _) eqn:B1; [|reflexivity]. now replace (nc A =? nr B) with false by lia.
  Qed.
  Theorem C32_transpose : forall A : mat T, wf A ->
    exists C, mtranspose A = Some C /\ is_mat (nc A) (nr A) (fun i j => ent A j i) C.
  Proof. intros A HA. eexists. split; [|apply mk_is_mat]. rewrite (wf_eq_mk A HA) at 1. now rewrite mtranspose_mk. Qed.
  Theorem C32_constants : forall n m : nat,
    (0 < n -> 0 < m -> exists Z, mzero n m = Some Z /\ is_mat n m (fun _ _ => t0 (T := T)) Z) /\
    (0 < n -> exists I, midentity n = Some I /\ is_mat n n (fun i j => if i =? j then t1 (T := T) else t0) I).
  Proof.
    intros n m. split.
    - intros Hn Hm. eexists. split; [now apply mzero_mk|apply mk_is_mat].
    - intros Hn. eexists. split; [now apply midentity_mk|apply mk_is_mat].
  Qed.
  (** Mismatched sizes are rejected. *)
  Theorem C32_mismatch : forall A B : mat T, wf A -> wf B ->
    (~ (nr A = nr B /\ nc A = nc B) -> madd A B = None /\ msub A B = None) /\
    (0 < nr A -> 0 < nc B -> nc A <> nr B -> mmul A B = None).
  Proof.
    intros A B HA HB. rewrite (wf_eq_mk A HA), (wf_eq_mk B HB). cbn [nr nc mk]. split.
    - intros H. split; now apply mzip_none.
    - intros. now apply mmul_none.
  Qed.
  (** C32, equality test *)
  Theorem C32_eq : forall teqb (A B : mat T), (forall a b, teqb a b = true <-> a = b) -> wf A -> wf B ->
    (meqb teqb A B = true <-> A = B).
  Proof.
    intros teqb A B Ht HA HB. rewrite (wf_eq_mk A HA), (wf_eq_mk B HB), meqb_spec by exact Ht. split.
    - intros (E1 & E2 & H). rewrite E1, E2 in *. now apply mk_ext.
    - intros E. assert (E1 : nr A = nr B) by (apply (f_equal nr) in E; exact E).
      assert (E2 : nc A = nc B) by (apply (f_equal nc) in E; exact E). split; [exact E1|]. split; [exact E2|].
      rewrite <- E1, <- E2 in E. now apply mk_inj.
  Qed.
  (** C32, ring laws *)
  Theorem C32_mul_assoc : ring_laws (T := T) -> forall A B C : mat T, wf A -> wf B -> wf C -> nc A = nr B -> nc B = nr C ->
    exists X, (do AB <- mmul A B; mmul AB C) = Some X /\ (do BC <- mmul B C; mmul A BC) = Some X.
  Proof.
    intros RL A B C HA HB HC E1 E2. rewrite (wf_eq_mk A HA), (wf_eq_mk B HB), (wf_eq_mk C HC). rewrite <- E1, <- E2.
    rewrite !mmul_mk. cbn [obind]. rewrite !mmul_mk. eexists. split; [reflexivity|]. f_equal. apply mk_ext. intros i j _ _.
    now rewrite prod_assoc.
  Qed.
  Theorem C32_mul_add : ring_laws (T := T) -> forall A B C : mat T, wf A -> wf B -> wf C -> nc A = nr B -> nr B = nr C -> nc B = nc C ->
    exists X, (do S <- madd B C; mmul A S) = Some X /\ (do AB <- mmul A B; do AC <- mmul A C; madd AB AC) = Some X.
  Proof.
    intros RL A B C HA HB HC E1 E2 E3. rewrite (wf_eq_mk A HA), (wf_eq_mk B HB), (wf_eq_mk C HC). rewrite <- E3, <- E2, <- E1. unfold madd.
    rewrite mzip_mk, !mmul_mk. cbn [obind]. rewrite mmul_mk, mzip_mk. eexists. split; [reflexivity|]. f_equal. apply mk_ext.
    intros i j _ _. symmetry. now apply prod_add_r.
  Qed.
  Theorem C32_add_mul : ring_laws (T := T) -> forall A B C : mat T, wf A -> wf B -> wf C -> nr A = nr B -> nc A = nc B -> nc B = nr C ->
    exists X, (do S <- madd A B; mmul S C) = Some X /\ (do AC <- mmul A C; do BC <- mmul B C; madd AC BC) = Some X.
  Proof.
    intros RL A B C HA HB HC E1 E2 E3. rewrite (wf_eq_mk A HA), (wf_eq_mk B HB), (wf_eq_mk C HC). rewrite <- E3, <- E2, <- E1. unfold madd.
    rewrite mzip_mk, !mmul_mk. cbn [obind]. rewrite mmul_mk, mzip_mk. eexists. split; [reflexivity|]. f_equal. apply mk_ext.
    intros i j _ _. symmetry. now apply prod_add_l.
  Qed.
  Theorem C32_mul_identity : ring_laws (T := T) -> forall A : mat T, wf A -> 0 < nr A -> 0 < nc A ->
    (do I <- midentity (nr A); mmul I A) = Some A /\ (do I <- midentity (nc A); mmul A I) = Some A.
  Proof.
    intros RL A HA Hn Hm. rewrite (wf_eq_mk A HA). cbn [nr nc mk]. fold (mk (nr A) (nc A) (ent A)).
    rewrite !midentity_mk by assumption. cbn [obind]. rewrite !mmul_mk. split; f_equal; apply mk_ext; intros i j Hi Hj;
    [now apply prod_id_l|now apply prod_id_r].
  Qed.
  Theorem C32_transpose_mul : ring_laws (T := T) -> forall A B : mat T, wf A -> wf B -> nc A = nr B ->
    exists X, (do AB <- mmul A B; mtranspose AB) = Some X /\ (do Bt <- mtranspose B; do At <- mtranspose A; mmul Bt At) = Some X.
  Proof.
    intros RL A B HA HB E. rewrite (wf_eq_mk A HA), (wf_eq_mk B HB). rewrite <- E. rewrite mmul_mk, !mtranspose_mk. cbn [obind].
    rewrite mtranspose_mk, mmul_mk. eexists. split; [reflexivity|]. f_equal. apply mk_ext. intros i j _ _. symmetry. now apply prod_transpose.
  Qed.

  (** C33.  Rows [r1], [r2] are exchanged and nothing else changes, also when [r1 = r2]; out-of-range indices panic. *)
  Theorem C33_swap_rows : forall (A : mat T) r1 r2, wf A -> 0 < nc A ->
    (r1 < nr A /\ r2 < nr A -> exists B, swap_rows A r1 r2 = Some B /\
       is_mat (nr A) (nc A) (fun i j => if i =? r1 then ent A r2 j else if i =? r2 then ent A r1 j else ent A i j) B) /\
    (~ (r1 < nr A /\ r2 < nr A) -> swap_rows A r1 r2 = None).
  Proof.
    intros A r1 r2 HA Hm. split.
    - intros [H1 H2]. eexists. split; [|apply mk_is_mat]. rewrite (wf_eq_mk A HA) at 1. rewrite swap_rows_mk by assumption. f_equal.
      apply mk_ext. intros i j _ _. now destruct (i =? r1), (i =? r2).
    - intros H. rewrite (wf_eq_mk A HA). now apply swap_rows_none.
  Qed.
  Theorem C33_swap_cols : forall (A : mat T) c1 c2, wf A -> 0 < nr A ->
    (c1 < nc A /\ c2 < nc A -> exists B, swap_cols A c1 c2 = Some B /\
       is_mat (nr A) (nc A) (fun i j => if j =? c1 then ent A i c2 else if j =? c2 then ent A i c1 else ent A i j) B) /\
    (~ (c1 < nc A /\ c2 < nc A) -> swap_cols A c1 c2 = None).
  Proof.
    intros A r1 r2 HA Hm. split.
    - intros [H1 H2]. eexists. split; [|apply mk_is_mat]. rewrite (wf_eq_mk A HA) at 1. rewrite swap_cols_mk by assumption. f_equal.
      apply mk_ext. intros i j _ _. now destruct (j =? r1), (j =? r2).
    - intros H. rewrite (wf_eq_mk A HA). now apply swap_cols_none.
  Qed.
  Theorem C33_row_operation : forall (A : mat T) r1 r2 s, wf A -> 0 < nc A ->
    (r1 < nr A /\ r2 < nr A -> exists B, row_operation A r1 r2 s = Some B /\
       is_mat (nr A) (nc A) (fun i j => if i =? r1 then tadd (ent A r1 j) (tmul (ent A r2 j) s) else ent A i j) B) /\
    (~ (r1 < nr A /\ r2 < nr A) -> row_operation A r1 r2 s = None).
  Proof.
    intros A r1 r2 s HA Hm. split.
    - intros [H1 H2]. eexists. split; [|apply mk_is_mat]. rewrite (wf_eq_mk A HA) at 1. now rewrite row_operation_mk.
    - intros H. rewrite (wf_eq_mk A HA). now apply row_operation_none.
  Qed.
  Theorem C33_col_operation : forall (A : mat T) c1 c2 s, wf A -> 0 < nr A ->
    (c1 < nc A /\ c2 < nc A -> exists B, col_operation A c1 c2 s = Some B /\
       is_mat (nr A) (nc A) (fun i j => if j =? c1 then tadd (ent A i c1) (tmul (ent A i c2) s) else ent A i j) B) /\
    (~ (c1 < nc A /\ c2 < nc A) -> col_operation A c1 c2 s = None).
  Proof.
    intros A r1 r2 s HA Hm. split.
    - intros [H1 H2]. eexists. split; [|apply mk_is_mat]. rewrite (wf_eq_mk A HA) at 1. now rewrite col_operation_mk.
    - intros H. rewrite (wf_eq_mk A HA). now apply col_operation_none.
  Qed.
  (** Each operation is multiplication by the matrix obtained by applying it to the identity. *)
  Theorem C33_elementary : ring_laws (T := T) -> forall (A : mat T) k l s, wf A -> 0 < nr A -> 0 < nc A ->
    (k < nr A -> l < nr A ->
       (exists I E B, midentity (nr A) = Some I /\ swap_rows I k l = Some E /\ mmul E A = Some B /\ swap_rows A k l = Some B) /\
       (exists I E B, midentity (nr A) = Some I /\ row_operation I k l s = Some E /\ mmul E A = Some B /\ row_operation A k l s = Some B)) /\
    (k < nc A -> l < nc A ->
       (exists I E B, midentity (nc A) = Some I /\ swap_cols I k l = Some E /\ mmul A E = Some B /\ swap_cols A k l = Some B) /\
       (exists I E B, midentity (nc A) = Some I /\ col_operation I k l s = Some E /\ mmul A E = Some B /\ col_operation A k l s = Some B)).
  Proof.
    intros RL A k l s HA Hn Hm. pose proof RL as RL'. unfold ring_laws in RL'. rewrite (wf_eq_mk A HA). cbn [nr nc mk]. fold (mk (nr A) (nc A) (ent A)).
    set (f := ent A). set (n := nr A) in *. set (m := nc A) in *. clearbody f n m. rewrite !midentity_mk by assumption.
    assert (Rz : forall x y z : T, tadd (tmul x y) (tmul (tmul z y) s) = tmul (tadd x (tmul z s)) y).
    { intros. destruct RL'. rewrite Rdistr_l. f_equal. rewrite <- !Rmul_assoc. f_equal. apply Rmul_comm. }
    assert (Rz' : forall x y z : T, tadd (tmul x y) (tmul (tmul x z) s) = tmul x (tadd y (tmul z s))).
    { intros. destruct RL'. rewrite (Rmul_comm x (tadd _ _)). rewrite Rdistr_l. f_equal; [apply Rmul_comm|]. rewrite <- !Rmul_assoc. rewrite (Rmul_comm x). now rewrite <- !Rmul_assoc. }
    split; intros Hk Hl; split.
    - eexists _, _, _. split; [reflexivity|]. split; [now apply swap_rows_mk|]. split; [now rewrite mmul_mk|].
      rewrite swap_rows_mk by assumption. f_equal. apply mk_ext. intros i j Hi Hj. unfold prod_entry.
      symmetry. apply (sum_delta_l RL' n (if i =? k then l else if i =? l then k else i) (fun x => f x j)).
      now destruct (i =? k), (i =? l).
    - eexists _, _, _. split; [reflexivity|]. split; [now apply row_operation_mk|]. split; [now rewrite mmul_mk|].
      rewrite row_operation_mk by assumption. f_equal. apply mk_ext. intros i j Hi Hj. unfold prod_entry.
      destruct (i =? k).
      + rewrite (sum_ext n _ (fun x => tadd (tmul (id_entry k x) (f x j)) (tmul (tmul (id_entry l x) (f x j)) s))) by (intros; symmetry; apply Rz).
        rewrite (sum_add RL'), (sum_mul_r RL'). now rewrite (sum_delta_l RL' n k (fun x => f x j)), (sum_delta_l RL' n l (fun x => f x j)).
      + symmetry. now apply (sum_delta_l RL' n i (fun x => f x j)).
    - eexists _, _, _. split; [reflexivity|]. split; [now apply swap_cols_mk|]. split; [now rewrite mmul_mk|].
      rewrite swap_cols_mk by assumption. f_equal. apply mk_ext. intros i j Hi Hj. unfold prod_entry.
      symmetry. apply (sum_delta_r RL' m (if j =? k then l else if j =? l then k else j) (fun x => f i x)).
      now destruct (j =? k), (j =? l).
    - eexists _, _, _. split; [reflexivity|]. split; [now apply col_operation_mk|]. split; [now rewrite mmul_mk|].
      rewrite col_operation_mk by assumption. f_equal. apply mk_ext. intros i j Hi Hj. unfold prod_entry.
      destruct (j =? k).
      + rewrite (sum_ext m _ (fun x => tadd (tmul (f i x) (id_entry x k)) (tmul (tmul (f i x) (id_entry x l)) s))) by (intros; symmetry; apply Rz').
        rewrite (sum_add RL'), (sum_mul_r RL'). now rewrite (sum_delta_r RL' m k (fun x => f i x)), (sum_delta_r RL' m l (fun x => f i x)).
      + symmetry. now apply (sum_delta_r RL' m j (fun x => f i x)).
  Qed.

  (** C39 *)
  Definition rectangular (v : list (list T)) (n m : nat) : Prop := 0 < n /\ 0 < m /\ length v = n /\ forall r, In r v -> length r = m.
  Theorem C39_rectangular : forall v n m, rectangular v n m ->
    exists M, from_array v = Some M /\ is_mat n m (fun i j => nth j (nth i v []) t0) M.
  Proof.
    intros v n m (Hn & Hm & Hl & H). assert (Hv : v <> []) by (intros ->; cbn in Hl; lia).
    assert (E : length (hd [] v) = m) by (apply H; destruct v; [congruence|now left]).
    eexists. split; [apply from_array_ok|].
    - exact Hv.
    - intros E0. rewrite E0 in E. cbn in E. lia.
    - apply Forall_forall. intros r Hr. rewrite E. now apply H.
    - rewrite E, Hl. apply mk_is_mat.
  Qed.
  (** Rejected: empty arrays, empty first rows, and arrays with a row shorter than the first. *)
  Theorem C39_rejects_partial : forall v : list (list T),
    (v = [] \/ hd [] v = [] -> from_array v = None) /\
    (forall r, In r v -> length r < length (hd [] v) -> from_array v = None).
  Proof. intros v. split; [apply from_array_empty|intros r; apply from_array_short]. Qed.
  (** Not rejected: any ragged array whose rows are all at least as long as the first; the surplus entries are dropped. *)
  Theorem C39_ragged_refuted : forall (v : list (list T)) r, v <> [] -> hd [] v <> [] -> (forall r, In r v -> length (hd [] v) <= length r) ->
    In r v -> length r <> length (hd [] v) ->
    exists M, from_array v = Some M /\ nr M = length v /\ nc M = length (hd [] v).
  Proof.
    intros v r Hv Hh HF _ _. destruct v as [|[|a r0] v]; [congruence|cbn in Hh; congruence|]. unfold from_array.
    destruct (forallb _ _) eqn:E.
    - exfalso. rewrite forallb_forall in E. specialize (E (a :: r0) ltac:(now left)). rewrite Nat.eqb_refl in E. discriminate.
    - eexists. split; [apply (mbuild_some _ _ _ (fun i j => nth j (nth i ((a :: r0) :: v) []) t0))|split; reflexivity].
      intros i j Hi Hj. rewrite (nth_error_nth' _ []) by exact Hi. cbn [obind].
      apply nth_error_nth'. cbn [hd] in HF. eapply Nat.lt_le_trans; [exact Hj|]. apply HF. now apply nth_In.
  Qed.
End Props.
Print Assumptions C32_add.
Print Assumptions C32_sub.
Print Assumptions C32_scale.
Print Assumptions C32_mul.
Print Assumptions C32_dot.
Print Assumptions C32_transpose.
Print Assumptions C32_constants.
Print Assumptions C32_mismatch.
Print Assumptions C32_eq.
Print Assumptions C32_mul_assoc.
Print Assumptions C32_mul_add.
Print Assumptions C32_add_mul.
Print Assumptions C32_mul_identity.
Print Assumptions C32_transpose_mul.
Print Assumptions C33_swap_rows.
Print Assumptions C33_swap_cols.
Print Assumptions C33_row_operation.
Print Assumptions C33_col_operation.
Print Assumptions C33_elementary.
Print Assumptions C39_rectangular.
Print Assumptions C39_rejects_partial.
Print Assumptions C39_ragged_refuted.

(** Non-vacuity: the integers are a ring, and concrete matrices. *)
Lemma ring_laws_Z : ring_laws (T := Z).
Proof. exact InitialRing.Zth. Qed.
Example C32_ex_mul : (do A <- from_array [[1; 2; 3]; [4; 5; 6]]%Z; do B <- from_array [[1; 0]; [0; 1]; [1; 1]]%Z; mmul A B) =
  from_array [[4; 5]; [10; 11]]%Z.
Proof. reflexivity. Qed.
Example C32_ex_wf : exists A, from_array [[1; 2; 3]; [4; 5; 6]]%Z = Some A /\ wf A /\ nr A = 2 /\ nc A = 3.
Proof. eexists. split; [reflexivity|]. split; [|split; reflexivity]. split; [reflexivity|]. repeat constructor. Qed.
Example C33_ex : (do A <- from_array [[1; 2]; [3; 4]]%Z; row_operation A 1 1 5%Z) = from_array [[1; 2]; [18; 24]]%Z.
Proof. reflexivity. Qed.
Example C33_ex_panic : (do A <- from_array [[1; 2]; [3; 4]]%Z; swap_cols A 0 2) = None.
Proof. reflexivity. Qed.
Example C39_ex_ragged : from_array [[1; 2]; [3; 4; 5]]%Z = from_array [[1; 2]; [3; 4]]%Z /\ from_array [[1; 2]; [3; 4]]%Z <> None.
Proof. split; [reflexivity|discriminate]. Qed.
Example C39_ex_rect : rectangular [[1; 2]; [3; 4]]%Z 2 2.
Proof. repeat split; auto. intros r [<-|[<-|[]]]; reflexivity. Qed.
