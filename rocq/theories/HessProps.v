(** C80: the Hessenberg form, over the real numbers. *)
From Coq Require Import List Arith Bool Lia ZifyBool Reals Lra.
From Verif Require Import PidModel MatModel MatSpec MatProofs MatProofs2 SnfModel RankModel LuModel LuSpec LuProofs2 LuProofs3 NumModel NumSpec NumProofs HouseProofs HessProofs.
Import ListNotations.
Open Scope R_scope.

Lemma hess_run n f : (2 <= n)%nat -> exists g, hessenberg_form (mk n n f) = Some (mk n n g) /\ hessenberg n g /\
  ((forall k, (k + 2 < n)%nat -> 0 <= g (k + 1)%nat k) -> orth_similar n f g).
Proof.
  intros Hn. destruct (hess_fold n f (n - 2) ltac:(lia)) as (g & E & Z & C). exists g. unfold hessenberg_form. rewrite nr_mk, nc_mk, Nat.eqb_refl. destruct (Nat.ltb_spec n 2); [lia|].
  unfold rng. rewrite Nat.sub_0_r, E. split; [reflexivity|]. split; [intros i j H2; apply Z; lia|]. intros P. apply C. intros l Hl. apply P. lia.
Qed.
(** C80.  On every square matrix [hessenberg_form] returns a matrix of the same size with zeros below the subdiagonal.  When the subdiagonal
    entries of the result, but the last, are not negative, it is orthogonally similar to the input. *)
Theorem C80_hessenberg_partial : forall M n, wf M -> nr M = n -> nc M = n ->
  exists H, hessenberg_form M = Some H /\ wf H /\ nr H = n /\ nc H = n /\ hessenberg n (ent H) /\
    ((forall k, (k + 2 < n)%nat -> 0 <= ent H (k + 1) k) -> orth_similar n (ent M) (ent H)).
Proof.
  intros M n W RM CM. destruct (Nat.lt_ge_cases n 2) as [L|L].
  - exists M. split; [unfold hessenberg_form; rewrite RM, CM, Nat.eqb_refl; now destruct (Nat.ltb_spec n 2); [|lia]|]. split; [exact W|]. split; [exact RM|]. split; [exact CM|]. split; [intros i j Hi; lia|].
    intros _. exists id_entry. split; [apply orth_id|apply congr_id].
  - destruct (hess_run n (ent M) L) as (g & E & Z & C). exists (mk n n g). rewrite (wf_eq_mk M W), RM, CM. split; [exact E|]. split; [apply wf_mk|]. split; [reflexivity|]. split; [reflexivity|].
    split; [intros i j Hi; rewrite ent_mk by lia; now apply Z|]. intros P. destruct C as (Q & O & C); [intros k Hk; specialize (P k Hk); now rewrite ent_mk in P by lia|]. exists Q. split; [exact O|].
    revert C. apply congr_ext; intros i j Hi Hj; symmetry; now apply ent_mk.
Qed.
(** In that case the trace and the eigenvalues are those of the input. *)
Theorem C80_spectrum : forall M n H, wf M -> nr M = n -> nc M = n -> hessenberg_form M = Some H -> (forall k, (k + 2 < n)%nat -> 0 <= ent H (k + 1) k) ->
  trace n (ent H) = trace n (ent M) /\ forall lambda, eigenvalue n (ent M) lambda <-> eigenvalue n (ent H) lambda.
Proof.
  intros M n H W RM CM E P. destruct (C80_hessenberg_partial M n W RM CM) as (H' & E' & _ & _ & _ & _ & S). rewrite E in E'. injection E' as <-. specialize (S P).
  split; [now apply trace_similar|]. intros l. now apply eigen_similar.
Qed.
(** The full claim. *)
Definition C80_claim : Prop := forall M n, wf M -> nr M = n -> nc M = n -> exists H, hessenberg_form M = Some H /\ orth_similar n (ent M) (ent H).
(** A 3 x 3 matrix that already is in Hessenberg form, with trace 1. *)
Definition hess_bad : nat -> nat -> R := fun i j => if (i =? 1)%nat && (j =? 1)%nat then 1 else if (i =? 1)%nat && (j =? 0)%nat then -1 else 0.
Theorem C80_refuted : ~ C80_claim.
Proof.
  intros H. destruct (H (mk 3 3 hess_bad) 3%nat (wf_mk _ _ _) eq_refl eq_refl) as (B & E & TS). apply trace_similar in TS.
  unfold hessenberg_form, rng in E. cbn [nr nc mk] in E. change (3 =? 3)%nat with true in E. change (3 <? 2)%nat with false in E. change (seq 0 (3 - 2 - 0)) with [0%nat] in E. cbn iota in E. cbn [foldM] in E.
  set (x := fun i : nat => if (i =? 0)%nat then -1 else 0).
  assert (hess_step 3 (mk 3 3 hess_bad) 0 = Some (mk 3 3 (hr 3 (shifted 1 3 (fun i => id_entry i 0%nat)) (-2) (hl 3 (shifted 1 3 (fun i => id_entry i 0%nat)) (-2) hess_bad)))) as E2.
  { unfold hess_step. rewrite msub_view_mk by lia. cbn [obind]. cbn [Nat.add Nat.sub]. rewrite householder_some by lia. cbn [obind fst snd].
    assert (bad_vec 2 (column (fun i j : nat => hess_bad (S i) j) 0)) as BV by (split; [cbn; lra|intros i Hi; unfold column, hess_bad; now replace (S i =? 1)%nat with false by lia]).
    destruct (hv_bad 2 _ ltac:(lia) BV) as (-> & V). rewrite (mk_ext 2 1 _ (fun i _ => id_entry i 0%nat)) by (intros i j Hi Hj; now apply V).
    rewrite (house_left_mk 3 1 3 0 3 (fun i => id_entry i 0%nat) (-2) hess_bad); [|lia|lia|intros i j Hi Hj N; lia]. cbn [obind].
    apply (house_right_mk 3 0 3 1 3 (fun i => id_entry i 0%nat) (-2)); [lia|lia|intros; lia]. }
  rewrite E2 in E. cbn [obind] in E. injection E as <-. unfold trace in TS. cbn [sum] in TS. rewrite !ent_mk in TS by lia. unfold hr, hl, shifted, hess_bad, id_entry in TS. cbn in TS. lra.
Qed.
Theorem C80_panics : forall M, nr M <> nc M -> hessenberg_form M = None.
Proof. intros M H. unfold hessenberg_form. now destruct (Nat.eqb_spec (nr M) (nc M)). Qed.
(** The hypothesis is met: here the result has the entry 5 below the diagonal. *)
Example C80_nonvacuous : exists H, hessenberg_form (mk 3 3 (fun i j => if (i =? 1)%nat && (j =? 0)%nat then 3 else if (i =? 2)%nat && (j =? 0)%nat then 4 else INR (i * j))) = Some H /\ ent H 1 0 = 5.
Proof.
  set (f := fun i j : nat => if (i =? 1)%nat && (j =? 0)%nat then 3 else if (i =? 2)%nat && (j =? 0)%nat then 4 else INR (i * j)).
  destruct (hess_run 3 f ltac:(lia)) as (g & E & _). exists (mk 3 3 g). split; [exact E|]. rewrite ent_mk by lia.
  assert (hess_upto 3 0 f) as Z by (intros i j Hj; lia). unfold hessenberg_form, rng in E. cbn [nr nc mk] in E. change (3 =? 3)%nat with true in E. change (3 <? 2)%nat with false in E. change (seq 0 (3 - 2 - 0)) with [0%nat] in E. cbn iota in E. cbn [foldM] in E.
  unfold hess_step in E. rewrite msub_view_mk in E by lia. cbn [obind Nat.add Nat.sub] in E. rewrite householder_some in E by lia. cbn [obind fst snd] in E.
  set (x := column (fun i j : nat => f (S i) j) 0) in *.
  pose proof (house_left_mk 3 1 3 0 3 (hv_v 2 x) (hv_b 2 x) f ltac:(lia) ltac:(lia) ltac:(intros; lia)) as HL. cbn [Nat.sub] in HL. rewrite HL in E. cbn [obind] in E.
  pose proof (house_right_mk 3 0 3 1 3 (hv_v 2 x) (hv_b 2 x) (hl 3 (shifted 1 3 (hv_v 2 x)) (hv_b 2 x) f) ltac:(lia) ltac:(lia) ltac:(intros; lia)) as HR. cbn [Nat.sub] in HR. rewrite HR in E. cbn [obind] in E. clear HL HR.
  apply (f_equal (fun o => match o with Some M => ent M 1 0 | None => 0 end)) in E. cbn beta iota in E.
  assert (ent (mk 3 3 (hr 3 (shifted 1 3 (hv_v 2 x)) (hv_b 2 x) (hl 3 (shifted 1 3 (hv_v 2 x)) (hv_b 2 x) f))) 1 0 = ent (mk 3 3 g) 1 0) as E3 by exact E.
  rewrite !ent_mk in E3 by lia. rewrite <- E3. rewrite hr_out by lia. change 2%nat with (3 - 1)%nat. rewrite (hl_own 3 1 3 f 0 x) by (lia || (intros; reflexivity)). cbn [Nat.sub].
  change (x 0%nat - hv_b 2 x * hv_v 2 x 0 * inner 2 (hv_v 2 x) x = 5).
  replace (x 0%nat - hv_b 2 x * hv_v 2 x 0 * inner 2 (hv_v 2 x) x) with (norm2 2 x).
  - unfold norm2, inner. cbn [sum]. replace (x 0%nat) with 3 by (unfold x, column, f; reflexivity). replace (x 1%nat) with 4 by (unfold x, column, f; reflexivity). replace (tadd (tadd t0 (3 * 3)) (4 * 4)) with (5 * 5) by (cbn; ring). apply sqrt_square. lra.
  - symmetry. assert (~ bad_vec 2 x) as G by (intros (B & _); unfold x, column, f in B; cbn in B; lra).
    exact (hv_reflects 2 x 0%nat ltac:(lia) G ltac:(lia)).
Qed.
Print Assumptions C80_hessenberg_partial.
Print Assumptions C80_spectrum.
Print Assumptions C80_refuted.
Print Assumptions C80_panics.
