(** Theorem C42: arithmetic of fixed-size vectors and matrices, for every size and every coefficient type. *)
From Coq Require Import List Arith ZArith Lia Ring_theory Ring.
From Verif Require Import PidModel MatModel MatSpec ConstModel ConstSpec ConstProofs.
Import ListNotations.
Open Scope nat_scope.

Section Props.
  Context {T : Type} {OT : Ops T}.
  Notation is_mat := ConstSpec.is_mat.

  Theorem C42_vectors : forall n (f g : nat -> T) a b, is_vec n f a -> is_vec n g b ->
    is_vec n (fun i => tadd (f i) (g i)) (cv_add a b) /\
    is_vec n (fun i => tsub (f i) (g i)) (cv_sub a b) /\
    (forall c, is_vec n (fun i => tmul (f i) c) (cv_mul a c)) /\
    (forall tdiv c, is_vec n (fun i => tdiv (f i) c) (cv_div tdiv a c)) /\
    is_vec n (fun i => topp (f i)) (cv_neg a) /\
    is_vec n (fun _ => t0) (cv_zero n) /\
    cv_dot a b = sum n (fun i => tmul (f i) (g i)).
  Proof.
    intros n f g a b Ha Hb. apply is_vec_tab in Ha, Hb. subst.
    assert (Z := fun op => zip_tab op f g (seq 0 n) []). setoid_rewrite app_nil_r in Z.
    unfold cv_add, cv_sub, cv_mul, cv_div, cv_neg, cv_zero, cv_dot.
    rewrite !Z. cbn [fst]. rewrite combine_tab, !map_map. cbn [fst snd].
    split; [now apply is_vec_tab|]. split; [now apply is_vec_tab|].
    split; [intros; apply is_vec_tab; now rewrite ?map_map|].
    split; [intros; apply is_vec_tab; now rewrite ?map_map|].
    split; [apply is_vec_tab; now rewrite ?map_map|].
    split; [|apply fold_add_sum].
    apply is_vec_tab. clear. generalize 0. induction n as [|n IH]; intros s; cbn; f_equal; auto.
  Qed.

  Theorem C42_matrices : forall n m (f g : nat -> nat -> T) a b, is_mat n m f a -> is_mat n m g b ->
    is_mat n m (fun i j => tadd (f i j) (g i j)) (cm_add a b) /\
    is_mat n m (fun i j => tsub (f i j) (g i j)) (cm_sub a b) /\
    (forall c, is_mat n m (fun i j => tmul (f i j) c) (cm_mul a c)) /\
    (forall tdiv c, is_mat n m (fun i j => tdiv (f i j) c) (cm_div tdiv a c)) /\
    is_mat n m (fun i j => topp (f i j)) (cm_neg a) /\
    is_mat n m (fun _ _ => t0) (cm_zero n m).
  Proof.
    intros n m f g a b Ha Hb. apply is_mat_tab in Ha, Hb. subst.
    assert (Z := fun op => zip_flat_tab op f g (seq 0 m) (seq 0 n) []). setoid_rewrite app_nil_r in Z.
    unfold cm_add, cm_sub, cm_mul, cm_div, cm_neg. rewrite !Z.
    split; [now apply is_mat_tab|]. split; [now apply is_mat_tab|].
    assert (MM : forall h : T -> T, is_mat n m (fun i j => h (f i j)) (map (map h) (map (fun i => map (f i) (seq 0 m)) (seq 0 n)))).
    { intros h. apply is_mat_tab. rewrite map_map. apply map_ext. intros i. now rewrite map_map. }
    split; [intros; apply (MM (fun x => tmul x c))|]. split; [intros; apply (MM (fun x => tdiv x c))|].
    split; [apply MM|]. rewrite cm_zero_tab. now apply is_mat_tab.
  Qed.

  (** [identity()] never panics and is the identity; a matrix built from column vectors has those columns. *)
  Theorem C42_constructors : forall n m,
    (exists a, cm_identity n = Some a /\ is_mat n n (fun i j => if i =? j then t1 else t0) a) /\
    (forall (f : nat -> nat -> T) cols, length cols = m ->
       (forall j, j < m -> exists v, nth_error cols j = Some v /\ is_vec n (fun i => f i j) v) ->
       exists a, cm_from_columns n m cols = Some a /\ is_mat n m f a).
  Proof.
    intros n m. split.
    - eexists. split; [apply cm_identity_tab|]. now apply is_mat_tab.
    - intros f cols L H. eexists. split.
      + apply cm_from_columns_tab with (f := f); auto. intros j Hj. destruct (H j Hj) as (v & E & V).
        apply is_vec_tab in V. now rewrite E, V.
      + now apply is_mat_tab.
  Qed.

  (** The vector-space laws users compute with, as equalities of the returned values. *)
  Context (RL : ring_laws (T := T)).
  Let RL' : ring_theory t0 t1 tadd tmul tsub topp (@eq T) := RL.
  Add Ring CT : RL'.
  Lemma vec_eq : forall n (f g : nat -> T) a b, is_vec n f a -> is_vec n g b -> (forall i, i < n -> f i = g i) -> a = b.
  Proof.
    intros n f g a b Ha Hb E. apply is_vec_tab in Ha, Hb. subst. apply map_ext_in. intros i Hi. apply in_seq in Hi. apply E. lia.
  Qed.
  Theorem C42_laws : forall n (f g h : nat -> T) a b d (c : T), is_vec n f a -> is_vec n g b -> is_vec n h d ->
    cv_add a b = cv_add b a /\
    cv_add (cv_add a b) d = cv_add a (cv_add b d) /\
    cv_add a (cv_zero n) = a /\
    cv_add a (cv_neg a) = cv_zero n /\
    cv_sub a b = cv_add a (cv_neg b) /\
    cv_mul (cv_add a b) c = cv_add (cv_mul a c) (cv_mul b c) /\
    cv_dot a b = cv_dot b a /\
    cv_dot (cv_add a b) d = tadd (cv_dot a d) (cv_dot b d).
  Proof.
    intros n f g h a b d c Ha Hb Hd.
    pose proof (C42_vectors n f g a b Ha Hb) as (Vab & Sab & Ma & _ & Na & Z & Dab).
    pose proof (C42_vectors n g f b a Hb Ha) as (Vba & _ & Mb & _ & Nb & _ & Dba).
    pose proof (C42_vectors n g h b d Hb Hd) as (Vbd & _ & _ & _ & _ & _ & Dbd).
    pose proof (C42_vectors n f h a d Ha Hd) as (_ & _ & _ & _ & _ & _ & Dad).
    pose proof (C42_vectors n _ h _ d Vab Hd) as (Vab_d & _ & _ & _ & _ & _ & Dab_d).
    pose proof (C42_vectors n f _ a _ Ha Vbd) as (Va_bd & _).
    pose proof (C42_vectors n f _ a _ Ha Z) as (Va0 & _).
    pose proof (C42_vectors n f _ a _ Ha Na) as (Van & _).
    pose proof (C42_vectors n f _ a _ Ha Nb) as (Vanb & _).
    pose proof (C42_vectors n _ _ _ _ Vab Vab) as (_ & _ & Mab & _).
    pose proof (C42_vectors n _ _ _ _ (Ma c) (Mb c)) as (Vmm & _).
    split; [eapply vec_eq; [exact Vab|exact Vba|intros; cbn; ring]|].
    split; [eapply vec_eq; [exact Vab_d|exact Va_bd|intros; cbn; ring]|].
    split; [eapply vec_eq; [exact Va0|exact Ha|intros; cbn; ring]|].
    split; [eapply vec_eq; [exact Van|exact Z|intros; cbn; ring]|].
    split; [eapply vec_eq; [exact Sab|exact Vanb|intros; cbn; ring]|].
    split; [eapply vec_eq; [exact (Mab c)|exact Vmm|intros; cbn; ring]|].
    split.
    - rewrite Dab, Dba. clear - RL RL'. induction n as [|n IH]; cbn; [reflexivity|]. rewrite IH. ring.
    - rewrite Dab_d, Dad, Dbd. clear - RL RL'. induction n as [|n IH]; cbn; [ring|]. rewrite IH. ring.
  Qed.
End Props.

Print Assumptions C42_vectors.
Print Assumptions C42_matrices.
Print Assumptions C42_constructors.
Print Assumptions C42_laws.

(** The hypotheses are met: a 2 by 3 integer matrix, its sum with itself, and columns. *)
Example ex42_mat : cm_add [[1; 2; 3]; [4; 5; 6]]%Z [[10; 20; 30]; [40; 50; 60]]%Z = [[11; 22; 33]; [44; 55; 66]]%Z.
Proof. reflexivity. Qed.
Example ex42_is_mat : ConstSpec.is_mat 2 3 (fun i j => Z.of_nat (3 * i + j + 1)) [[1; 2; 3]; [4; 5; 6]]%Z.
Proof. now apply is_mat_tab. Qed.
Example ex42_cols : cm_from_columns 2 3 [[1; 4]; [2; 5]; [3; 6]]%Z = Some [[1; 2; 3]; [4; 5; 6]]%Z.
Proof. reflexivity. Qed.
Example ex42_dot : cv_dot [1; 2; 3]%Z [4; 5; 6]%Z = 32%Z.
Proof. reflexivity. Qed.
Example ex42_id : cm_identity 2 = Some [[1; 0]; [0; 1]]%Z.
Proof. reflexivity. Qed.
