(** Property C156: [lu] and [det] of the transpose, of a multiple and of a leading block (every field, exact arithmetic). *)
From Coq Require Import List Arith ZArith Bool Lia ZifyBool Ring_theory Ring.
From Verif Require Import PidModel MatModel MatSpec MatProofs MatProofs2 SnfModel RankModel LuModel LuSpec LuProofs LuProofs2 LuProofs3 LuProps BandLuProps SylvProps.
Import ListNotations.
Open Scope nat_scope.

Section DetT.
  Context {T : Type} {OT : Ops T} {FT : FOps T}.
  Hypothesis FO : field_ok (T := T).
  Let RL : ring_theory t0 t1 tadd tmul tsub topp (@eq T) := proj1 FO.
  Add Ring TDt : RL.

  Lemma schur_T A k : (forall l, l < k -> piv A l <> t0) -> forall i j, schur (fun i j => A j i) k i j = schur A k j i.
  Proof.
    induction k as [|k IH]; intros P i j; [reflexivity|]. assert (IH' := IH ltac:(intros; apply P; lia)). cbn [schur]. rewrite !IH'. change (schur A k k k) with (piv A k). assert (N : piv A k <> t0) by (apply P; lia).
    eapply (sub_swap FO); [apply (div_mul FO), N|apply (div_mul FO), N|reflexivity|reflexivity].
  Qed.
  Lemma piv_T A k : (forall l, l < k -> piv A l <> t0) -> piv (fun i j => A j i) k = piv A k. Proof. intros P. now apply schur_T. Qed.
  Lemma scale_div x c p : c <> t0 -> p <> t0 -> tdiv (tmul x c) (tmul p c) = tdiv x p.
  Proof.
    intros Hc Hp. assert (N : tmul p c <> t0) by (intros E; apply (mul_zero FO) in E; tauto). set (q := tdiv _ _). pose proof (div_mul FO (tmul x c) (tmul p c) N) as E. fold q in E. pose proof (div_mul FO x p Hp) as E2. set (r := tdiv x p) in *.
    assert (Z : tmul (tsub q r) (tmul p c) = t0) by (replace (tmul (tsub q r) (tmul p c)) with (tsub (tmul q (tmul p c)) (tmul (tmul r p) c)) by ring; rewrite E, E2; ring).
    apply (mul_zero FO) in Z. destruct Z as [Z|Z]; [|contradiction]. replace q with (tadd (tsub q r) r) by ring. rewrite Z. ring.
  Qed.
  Lemma schur_scale A c k : c <> t0 -> (forall l, l < k -> piv A l <> t0) -> forall i j, schur (fun i j => tmul (A i j) c) k i j = tmul (schur A k i j) c.
  Proof.
    intros Hc. induction k as [|k IH]; intros P i j; [reflexivity|]. assert (IH' := IH ltac:(intros; apply P; lia)). cbn [schur]. rewrite !IH'. rewrite scale_div; [ring|exact Hc|apply P; lia].
  Qed.
  Lemma det_some n A : 0 < n -> (forall k, k + 1 < n -> piv A k <> t0) -> det (mk n n A) = Some (product n (piv A)).
  Proof.
    intros Hn P. unfold det. cbn [nr nc mk]. rewrite Nat.eqb_refl. rewrite (lu_some FO) by assumption. cbn [obind]. set (F := mk n n (lu_entry A (n - 1))). change (nr F) with n.
    rewrite (omapM_some _ (piv A)).
    - cbn [obind]. now rewrite fold_product.
    - intros i Hi. apply in_seq in Hi. unfold F. rewrite mget_in by lia. f_equal. unfold lu_entry, piv. rewrite Nat.leb_refl. destruct ((n - 1 <=? i) && (n - 1 <=? i)) eqn:E; [now replace i with (n - 1) by lia|reflexivity].
  Qed.
  Lemma det_none n A k : k + 1 < n -> piv A k = t0 -> (forall l, l < k -> piv A l <> t0) -> det (mk n n A) = None.
  Proof. intros Hk Z P. unfold det. cbn [nr nc mk]. rewrite Nat.eqb_refl. now rewrite (lu_none FO n A k Hk Z P). Qed.
  Lemma product_scale n (f : nat -> T) c : product n (fun i => tmul (f i) c) = tmul (product n f) (product n (fun _ => c)).
  Proof. induction n as [|n IH]; cbn [product]; [ring|]. rewrite IH. ring. Qed.

  (** C156.  [det] of the transpose is [det], finite or not. *)
  Theorem C156_transpose : forall M n, wf M -> nr M = n -> nc M = n -> 0 < n -> (do Mt <- mtranspose M; det Mt) = det M.
  Proof.
    intros M n W R C Hn. rewrite (wf_eq_mk M W), R, C. rewrite mtranspose_mk. cbn [obind]. set (A := ent M).
    destruct (piv_dec FO (n - 1) A) as [P|(k & Hk & Z & P)].
    - rewrite !det_some; [|exact Hn|intros; apply P; lia|exact Hn|intros k Hk; rewrite piv_T by (intros; apply P; lia); apply P; lia]. f_equal. apply product_ext. intros i Hi. apply piv_T. intros; apply P; lia.
    - rewrite (det_none n A k) by (lia || assumption). apply (det_none n _ k); [lia|rewrite piv_T by exact P; exact Z|]. intros l Hl. rewrite piv_T by (intros; apply P; lia). now apply P.
  Qed.
  Fixpoint power (x : T) (n : nat) : T := match n with 0 => t1 | S n => tmul (power x n) x end.
  (** A multiple has the determinant times the [n]-th power of the factor, and [det] is finite on both or on neither. *)
  Theorem C156_scale : forall M n c, wf M -> nr M = n -> nc M = n -> 0 < n -> c <> t0 -> (do N <- mscale M c; det N) = option_map (fun d => tmul d (power c n)) (det M).
  Proof.
    intros M n c W R C Hn Hc. rewrite (wf_eq_mk M W), R, C. rewrite mscale_mk. cbn [obind]. set (A := ent M).
    assert (PS : forall k, (forall l, l < k -> piv A l <> t0) -> piv (fun i j => tmul (A i j) c) k = tmul (piv A k) c) by (intros k P; unfold piv; now apply schur_scale).
    assert (NZ : forall k, (forall l, l < k -> piv A l <> t0) -> piv A k <> t0 -> piv (fun i j => tmul (A i j) c) k <> t0) by (intros k P N; rewrite PS by exact P; intros E; apply (mul_zero FO) in E; tauto).
    destruct (piv_dec FO (n - 1) A) as [P|(k & Hk & Z & P)].
    - rewrite !det_some; [|exact Hn|intros; apply P; lia|exact Hn|intros k Hk; apply NZ; [intros; apply P; lia|apply P; lia]]. cbn [option_map]. f_equal.
      rewrite (product_ext n _ (fun i => tmul (piv A i) c)) by (intros i Hi; apply PS; intros; apply P; lia). rewrite product_scale. f_equal. clear. induction n as [|n IH]; [reflexivity|]. cbn [product power]. now rewrite IH.
    - rewrite (det_none n A k) by (lia || assumption). cbn [option_map]. apply (det_none n _ k); [lia|rewrite PS by exact P; rewrite Z; ring|]. intros l Hl. apply NZ; [intros; apply P; lia|now apply P].
  Qed.
  (** The leading block of the factors is what [lu] gives on the leading block. *)
  Theorem C156_block : forall M F n m, wf M -> nr M = n -> nc M = n -> 0 < m <= n -> lu M = Some F -> (do B <- msub_view M 0 m 0 m; lu B) = msub_view F 0 m 0 m.
  Proof.
    intros M F n m W R C Hm E. pose proof (wf_eq_mk M W) as EM. rewrite R, C in EM. set (A := ent M) in *. clearbody A. rewrite EM in E |- *. clear EM R C W M. destruct (piv_dec FO (n - 1) A) as [P|(k & Hk & Z & P)]; [|rewrite (lu_none FO n A k) in E; [discriminate|lia|exact Z|exact P]].
    rewrite (lu_some FO) in E by (lia || (intros; apply P; lia)). injection E as <-. rewrite !msub_view_mk by lia. cbn [obind]. rewrite Nat.sub_0_r. cbn [Nat.add].
    rewrite (lu_some FO) by (lia || (intros; apply P; lia)). f_equal. apply mk_ext. intros i j Hi Hj. unfold lu_entry.
    destruct ((m - 1 <=? i) && (m - 1 <=? j)) eqn:E1, ((n - 1 <=? i) && (n - 1 <=? j)) eqn:E2; try reflexivity.
    - replace m with n by lia. reflexivity.
    - replace i with (m - 1) by lia. replace j with (m - 1) by lia. now rewrite Nat.leb_refl.
    - exfalso. lia.
  Qed.
End DetT.
Print Assumptions C156_transpose. Print Assumptions C156_scale. Print Assumptions C156_block.
(** A concrete case: the matrix, its transpose and its triple. *)
#[local] Existing Instance ops_Qc.
#[local] Existing Instance fops_Qc.
Example C156_nontrivial : wf exA /\ nr exA = 3 /\ nc exA = 3 /\ (exists F, lu exA = Some F) /\
  option_map QArith.Qcanon.this (do Mt <- mtranspose exA; det Mt) = Some (QArith.Qcanon.this (qz (-16))) /\ option_map QArith.Qcanon.this (do N <- mscale exA (qz 3); det N) = Some (QArith.Qcanon.this (qz (-432))).
Proof.
  split; [split; [reflexivity|repeat constructor]|]. split; [reflexivity|]. split; [reflexivity|]. split; [eexists; reflexivity|]. split; vm_compute; reflexivity.
Qed.
