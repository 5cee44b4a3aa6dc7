(** Property theorems for util/src/lib.rs (C01-C07). *)
From Coq Require Import List Arith NArith Bool.
From Verif Require Import UtilModel UtilSpec UtilProofs UtilProofs2.
Import ListNotations.

(** C01: every program over BinaryPool behaves like the same program over finite sets of indices. *)
Theorem C01_pool_is_a_set : forall e : pexp,
  match run_pool e, run_set e with
  | None, None => True                      (* both reject: index >= len or lengths differ *)
  | Some p, Some s =>
      p_len p = a_len s /\ NoDup (a_mem s) /\
      (forall i, pool_contains p i = if i <? a_len s then Some (mem i (a_mem s)) else None) /\
      pool_n_elements p = length (a_mem s) /\
      (pool_is_full p = true <-> forall i, i < a_len s -> In i (a_mem s))
  | _, _ => False
  end.
Proof. exact pool_refines. Qed.
Print Assumptions C01_pool_is_a_set.

Example C01_nontrivial :
  run_set (EUnion (ERemove (EAdd (EResize (EFrom 70 [1; 64; 1]) 130) 129) 64) (EFill (ENew 130))) <> None
  /\ option_map p_n (run_pool (ERemove (EAdd (EResize (EFrom 70 [1; 64; 1]) 130) 129) 64)) = Some 2
  /\ run_pool (EAdd (ENew 64) 64) = None
  /\ run_pool (EUnion (ENew 3) (ENew 4)) = None.
Proof. repeat split; vm_compute; congruence. Qed.

(** C02 *)
Theorem C02_iter_sorted_members : forall e p, run_pool e = Some p ->
  exists l, pool_iter p = Some l /\ strictly_inc l /\
            (forall i, In i l <-> pool_contains p i = Some true).
Proof. exact iter_theorem. Qed.
Print Assumptions C02_iter_sorted_members.

Example C02_nontrivial : bind (run_pool (EFrom 130 [129; 0; 64; 63])) pool_iter = Some [0; 63; 64; 129].
Proof. vm_compute. reflexivity. Qed.

(** C03 *)
Theorem C03_subset : forall e f p q, run_pool e = Some p -> run_pool f = Some q ->
  if p_len p =? p_len q then
    exists b, pool_is_subset_of p q = Some b /\
      (b = true <-> forall i, pool_contains p i = Some true -> pool_contains q i = Some true)
  else pool_is_subset_of p q = None.
Proof. exact subset_theorem. Qed.
Print Assumptions C03_subset.

Theorem C03_equality_extensional : forall e f p q, run_pool e = Some p -> run_pool f = Some q ->
  (pool_eqb p q = true <-> p_len p = p_len q /\ forall i, pool_contains p i = pool_contains q i).
Proof. exact eq_theorem. Qed.
Print Assumptions C03_equality_extensional.

Example C03_nontrivial :
  (* two different histories with the same members are equal; a grown pool equals a fresh one *)
  bind (run_pool (ERemove (EAdd (EResize (ENew 10) 100) 70) 70)) (fun p =>
    bind (run_pool (ENew 100)) (fun q => Some (pool_eqb p q))) = Some true /\
  bind (run_pool (EFrom 70 [65])) (fun p => bind (run_pool (EFrom 70 [1])) (pool_is_subset_of p)) = Some false.
Proof. split; vm_compute; reflexivity. Qed.

(** C04 *)
Theorem C04_from : forall n l,
  (Forall (fun i => i < n) l ->
     exists p, pool_from n l = Some p /\ p_len p = n /\
       (forall i, i < n -> pool_contains p i = Some (mem i l)) /\
       pool_n_elements p = length (nodup Nat.eq_dec l)) /\
  (~ Forall (fun i => i < n) l -> pool_from n l = None).
Proof. exact from_theorem. Qed.
Print Assumptions C04_from.

Example C04_nontrivial : Forall (fun i => i < 66) [65; 0; 65] /\ ~ Forall (fun i => i < 66) [66].
Proof. split; [repeat constructor|]. intro H. inversion H; subst. now apply Nat.lt_irrefl in H2. Qed.

(** C05 *)
Theorem C05_labeled_set : forall (T : Type) (eqb : T -> T -> bool),
  (forall x y, eqb x y = true <-> x = y) ->
  forall labels (h : list (lop T)), NoDup labels ->
    ((forall o, In o h -> In (target o) labels) ->
      exists s, fold_left (lstep eqb) h (Some (lset_new labels)) = Some s /\
        lset_iter s = Some (filter (after eqb h) labels) /\
        lset_n_elements s = length (filter (after eqb h) labels)) /\
    ((exists o, In o h /\ ~ In (target o) labels) ->
      fold_left (lstep eqb) h (Some (lset_new labels)) = None).
Proof. exact @lset_theorem. Qed.
Print Assumptions C05_labeled_set.

Example C05_nontrivial :
  option_map lset_iter (fold_left (lstep Nat.eqb) [LAdd 30; LAdd 10; LRemove 30; LAdd 20; LRemove 20; LAdd 20]
     (Some (lset_new [10; 20; 30]))) = Some (Some [10; 20]) /\
  (forall x y, Nat.eqb x y = true <-> x = y).
Proof. split; [vm_compute; reflexivity|exact Nat.eqb_eq]. Qed.

(** C06: k-combinations, each once, in lexicographic order; [f0] calls of [next] suffice. *)
Theorem C06_tuple_iter : forall (A : Type) (data : list A) k, 0 < k ->
  exists L, (exists f0, forall fuel, f0 <= fuel -> tuple_iter_collect fuel data k = Some (map (pick data) L)) /\
    lex_sorted L /\ NoDup L /\ (forall c, In c L <-> combination (length data) k c).
Proof.
  intros A data k Hk. destruct (tuple_theorem data k Hk) as (L & H1 & H2 & H3).
  exists L. auto using lex_sorted_NoDup.
Qed.
Print Assumptions C06_tuple_iter.

(** Size 0 is rejected by a panic ([size-1] underflow), rather than yielding the single empty tuple. *)
Theorem C06_size_zero_panics : forall (A : Type) fuel (data : list A), tuple_iter_collect fuel data 0 = None.
Proof. exact @tuple_zero_panics. Qed.
Print Assumptions C06_size_zero_panics.

Example C06_nontrivial :
  tuple_iter_collect 50 [7; 8; 9; 7] 2 = Some [[7; 8]; [7; 9]; [7; 7]; [8; 9]; [8; 7]; [9; 7]].
Proof. vm_compute. reflexivity. Qed.

(** C07 *)
Theorem C07_count_ones : forall x, (x < 2 ^ 64)%N -> count_ones x = Some (popcount 64 x).
Proof. exact count_ones_spec. Qed.
Print Assumptions C07_count_ones.

Example C07_nontrivial : (0xF0F0_0000_0000_0001 < 2 ^ 64)%N /\ count_ones 0xF0F0_0000_0000_0001 = Some 9.
Proof. split; vm_compute; reflexivity. Qed.
