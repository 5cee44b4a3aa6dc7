(** The double-shift step: chasing the bulge. *)
From Coq Require Import List Arith Bool Lia ZifyBool Reals Lra.
From Verif Require Import PidModel MatModel MatSpec MatProofs MatProofs2 SnfModel RankModel LuModel LuSpec LuProofs2 LuProofs3 NumModel NumSpec NumProofs HouseProofs HessProofs FrancisModel FrancisSpec.
Import ListNotations.
Open Scope R_scope.

Definition vec3 (x y z : R) : nat -> R := fun i => match i with 0%nat => x | 1%nat => y | _ => z end.
Lemma col_vec3 x y z : col_vec [x; y; z] = mk 3 1 (fun i _ => vec3 x y z i). Proof. reflexivity. Qed.
Lemma col_vec2 x y z : col_vec [x; y] = mk 2 1 (fun i _ => vec3 x y z i). Proof. reflexivity. Qed.
Lemma fr_left_mk n r0 r1 c0 c1 v b f : (r0 <= r1 <= n)%nat -> (c0 <= c1 <= n)%nat ->
  (forall i j, (r0 <= i < r1)%nat -> (j < n)%nat -> ~ (c0 <= j < c1)%nat -> f i j = 0) ->
  fr_left (mk n n f) r0 r1 c0 c1 (mk (r1 - r0) 1 (fun i _ => v i)) b = Some (mk n n (hl n (shifted r0 r1 v) b f)).
Proof.
  intros Hr Hc Z. unfold fr_left. rewrite msub_view_mk by assumption. cbn [obind]. rewrite mtranspose_mk. cbn [obind]. rewrite mmul_mk. cbn [obind]. rewrite mscale_mk. cbn [obind]. rewrite mmul_mk. cbn [obind].
  unfold msub. rewrite mzip_mk. cbn [obind]. rewrite mwrite_mk by assumption. f_equal. apply mk_ext. intros i j Hi Hj. rewrite <- (left_window n r0 r1 c0 c1 v b f Hr Hc Z i j Hi Hj).
  destruct ((r0 <=? i) && (i <? r1) && (c0 <=? j) && (j <? c1))%nat eqn:E; [|reflexivity]. unfold prod_entry. cbn [sum]. replace (r0 + (i - r0))%nat with i by lia. replace (c0 + (j - c0))%nat with j by lia. cbn. ring.
Qed.
Lemma fr_right_mk n r0 r1 c0 c1 v b f : (r0 <= r1 <= n)%nat -> (c0 <= c1 <= n)%nat ->
  (forall i j, (c0 <= j < c1)%nat -> (i < n)%nat -> ~ (r0 <= i < r1)%nat -> f i j = 0) ->
  fr_right (mk n n f) r0 r1 c0 c1 (mk (c1 - c0) 1 (fun i _ => v i)) b = Some (mk n n (hr n (shifted c0 c1 v) b f)).
Proof.
  intros Hr Hc Z. unfold fr_right. rewrite msub_view_mk by assumption. cbn [obind]. rewrite mmul_mk. cbn [obind]. rewrite mtranspose_mk. cbn [obind]. rewrite mscale_mk. cbn [obind]. rewrite mmul_mk. cbn [obind].
  unfold msub. rewrite mzip_mk. cbn [obind]. rewrite mwrite_mk by assumption. f_equal. apply mk_ext. intros i j Hi Hj. rewrite <- (right_window n r0 r1 c0 c1 v b f Hr Hc Z i j Hi Hj).
  destruct ((r0 <=? i) && (i <? r1) && (c0 <=? j) && (j <? c1))%nat eqn:E; [|reflexivity]. unfold prod_entry. cbn [sum]. replace (r0 + (i - r0))%nat with i by lia. replace (c0 + (j - c0))%nat with j by lia. cbn. ring.
Qed.
(** Closed form of a Householder vector under extensional equality. *)
Lemma hv_ext n x y : (forall i, (i < n)%nat -> x i = y i) -> (0 < n)%nat -> hv_b n x = hv_b n y /\ forall i, (i < n)%nat -> hv_v n x i = hv_v n y i.
Proof.
  intros E Hn. assert (tail_sq n x = tail_sq n y) as T by (unfold tail_sq; apply rsum_ext; intros; now rewrite E by lia).
  assert (norm2 n x = norm2 n y) as N by (unfold norm2; f_equal; now apply inner_ext). unfold hv_b, hv_v, hv_h. rewrite T, N, (E 0%nat Hn). split; [reflexivity|]. intros i Hi. now rewrite E.
Qed.
Lemma householder_mk n x : (0 < n)%nat -> householder_vec (mk n 1 (fun i _ => x i)) = Some (mk n 1 (fun i _ => hv_v n x i), hv_b n x).
Proof. intros Hn. rewrite householder_some by exact Hn. reflexivity. Qed.
(** The entry at the head of the column after the reflection. *)
Lemma hv_head n x : (0 < n)%nat -> 0 <= x 0%nat - hv_b n x * hv_v n x 0 * inner n (hv_v n x) x -> ~ bad_vec n x.
Proof.
  intros Hn P B. destruct (hv_bad n x Hn B) as (Eb & Ev). rewrite Eb, hv_v0 in P. rewrite (inner_ext n _ (fun i => id_entry i 0%nat) x x) in P by (auto || (intros; now apply Ev)). unfold inner in P.
  rewrite (rsum_ext n _ (fun i => id_entry 0%nat i * x i)) in P by (intros; now rewrite id_sym). rewrite rsum_id_l in P by lia. destruct B as (B & _). lra.
Qed.
Lemma hv_last_nonzero n x l : (0 < l < n)%nat -> x l <> 0 -> tail_sq n x <> 0 /\ hv_b n x <> 0 /\ hv_v n x l <> 0 /\ ~ bad_vec n x /\ 0 < norm2 n x.
Proof.
  intros Hl N. assert (tail_sq n x <> 0) as T by (intros T; apply N; now apply (tail_zero n x T)). pose proof (hv_h_neg n x ltac:(lia) T) as H. pose proof (tail_nonneg n x) as TN.
  assert (0 < hv_h n x * hv_h n x) as HH by nra. split; [exact T|]. unfold hv_b, hv_v. destruct (Req_EM_T (tail_sq n x) 0) as [E|E]; [contradiction|]. split.
  - intros K. unfold Rdiv in K. apply Rmult_integral in K. destruct K as [K|K]; [lra|]. revert K. apply Rinv_neq_0_compat. lra.
  - split; [|split; [intros (_ & B); apply N, B; lia|]].
    + destruct (Nat.eqb_spec l 0); [lia|]. intros K. unfold Rdiv in K. apply Rmult_integral in K. destruct K as [K|K]; [now apply N|]. revert K. apply Rinv_neq_0_compat. lra.
    + pose proof (hv_facts n x ltac:(lia) T) as F. apply F.
Qed.

(** The first column of the reflection is the unit vector in the direction of [x]. *)
Lemma hv_column n x i : (0 < n)%nat -> ~ bad_vec n x -> (i < n)%nat -> norm2 n x * (id_entry i 0%nat - hv_b n x * hv_v n x i) = x i.
Proof.
  intros Hn G Hi. pose proof (hv_reflects n x i Hn G Hi) as R. destruct (hv_good n x Hn G) as [B|B].
  - assert (inner n (hv_v n x) x - hv_b n x * inner n (hv_v n x) (hv_v n x) * inner n (hv_v n x) x = norm2 n x) as D.
    { pose proof (hv_v0 n x) as V0. unfold inner at 1 2. rewrite <- (rsum_mul_l n (hv_b n x)), <- rsum_mul_r, <- rsum_sub.
      rewrite (rsum_ext n _ (fun k => (if (k =? 0)%nat then norm2 n x else 0) * hv_v n x k)).
      - destruct n as [|n]; [lia|]. rewrite rsum_first. cbn [Nat.eqb]. rewrite rsum_zero by (intros k Hk; cbn [Nat.eqb]; ring). rewrite V0. ring.
      - intros k Hk. rewrite <- (hv_reflects n x k Hn G Hk). ring. }
    rewrite B in D. unfold id_entry. destruct (Nat.eqb_spec i 0) as [E|E]; cbn in R |- *; nra.
  - rewrite B in *. unfold id_entry. destruct (Nat.eqb_spec i 0) as [E|E]; cbn in R |- *; lra.
Qed.

(** Before step [k] the matrix is in Hessenberg form, but for the three entries [(k+1,k-1)], [(k+2,k-1)], [(k+2,k)]. *)
Definition bulge (n k : nat) (f : nat -> nat -> R) : Prop := forall i j, (j + 1 < i < n)%nat -> (k = 0 \/ j + 1 < k \/ k < j \/ k + 2 < i)%nat -> f i j = 0.
Section Step.
  Variables (n k : nat) (f : nat -> nat -> R) (w : nat -> R).
  Hypothesis Hk : (k + 2 < n)%nat.
  Hypothesis BU : bulge n k f.
  Hypothesis OWN : (0 < k)%nat -> forall i, (i < 3)%nat -> w i = f (k + i)%nat (k - 1)%nat.
  Let V := shifted k (k + 3) (hv_v 3 w).
  Let b := hv_b 3 w.
  Definition fr_next : nat -> nat -> R := hr n V b (hl n V b f).
  Lemma fr_row_far i j : (k + 3 < i < n)%nat -> (j < n)%nat -> fr_next i j = f i j.
  Proof.
    intros Hi Hj. unfold fr_next, V. rewrite hr_zero_row; [apply hl_out; lia|lia|]. intros c Hc. rewrite hl_out by lia. apply BU; lia.
  Qed.
  Lemma fr_col_done i j : (j < k)%nat -> fr_next i j = hl n V b f i j.
  Proof. intros Hj. unfold fr_next, V. apply hr_out. lia. Qed.
  Lemma fr_own i : (0 < k)%nat -> (i < 3)%nat -> fr_next (k + i)%nat (k - 1)%nat = w i - b * hv_v 3 w i * inner 3 (hv_v 3 w) w.
  Proof.
    intros H0 Hi. rewrite fr_col_done by lia. unfold V, b. pose proof (hl_own n k (k + 3) f (k - 1) w (k + i)%nat ltac:(lia)) as K. replace (k + 3 - k)%nat with 3%nat in K by lia. rewrite K.
    - now replace (k + i - k)%nat with i by lia.
    - intros i0 H1. symmetry. apply OWN; lia.
    - lia.
  Qed.
  Lemma fr_kept i j : (j + 1 < k)%nat -> (j < i < n)%nat -> (i < k \/ j + 1 < i)%nat -> fr_next i j = f i j.
  Proof.
    intros Hj Hi C. rewrite fr_col_done by lia. unfold V. apply hl_zero_col; [lia|]. intros r Hr. apply BU; lia.
  Qed.
  Lemma fr_bulge : bulge n (k + 1) fr_next.
  Proof.
    intros i j Hi C. destruct (Nat.lt_ge_cases (k + 3) i) as [L|L]; [rewrite fr_row_far by lia; apply BU; lia|].
    destruct (Nat.lt_ge_cases j k) as [J|J]; [|exfalso; lia].
    destruct (Nat.eq_dec (j + 1) k) as [E|E].
    - destruct (Nat.lt_ge_cases i (k + 3)) as [I|I].
      + replace i with (k + (i - k))%nat by lia. replace j with (k - 1)%nat by lia. rewrite fr_own by lia. unfold b. apply hv_clears; lia.
      + rewrite fr_col_done by lia. unfold V. rewrite hl_out by lia. apply BU; lia.
    - rewrite fr_kept by lia. apply BU; lia.
  Qed.
  Lemma fr_corner : (k + 3 < n)%nat -> fr_next (k + 3)%nat k = - (b * hv_v 3 w 2 * f (k + 3)%nat (k + 2)%nat).
  Proof.
    intros H. unfold fr_next, hr. unfold V at 2. rewrite shifted_sum by lia. replace (k + 3 - k)%nat with 3%nat by lia. cbn [sum]. unfold V at 1 2 3 4. rewrite !hl_out by lia.
    rewrite !Nat.add_0_r. rewrite (BU (k + 3)%nat k) by lia. rewrite (BU (k + 3)%nat (k + 1)%nat) by lia. unfold V, shifted. replace ((k <=? k) && (k <? k + 3))%nat with true by lia. rewrite Nat.sub_diag, hv_v0. cbn. ring.
  Qed.
  Lemma fr_step_mk : fr_step n (FrSt (mk n n f) (w 0%nat) (w 1%nat) (w 2%nat)) k =
    Some (FrSt (mk n n fr_next) (fr_next (k + 1)%nat k) (fr_next (k + 2)%nat k) (if (k <? n - 3)%nat then fr_next (k + 3)%nat k else w 2%nat)).
  Proof.
    unfold fr_step. cbn [f_m f_x f_y f_z]. rewrite col_vec3, householder_mk by lia. cbn [obind fst snd].
    destruct (hv_ext 3 (vec3 (w 0%nat) (w 1%nat) (w 2%nat)) w) as (Eb & Ev); [intros [|[|[|i]]] Hi; (reflexivity || lia)|lia|].
    rewrite Eb. rewrite (mk_ext 3 1 _ (fun i _ => hv_v 3 w i)) by (intros i j Hi Hj; now apply Ev).
    pose proof (fr_left_mk n k (k + 3) (if 0 <? k then k - 1 else 0)%nat n (hv_v 3 w) (hv_b 3 w) f) as HL. replace (k + 3 - k)%nat with 3%nat in HL by lia.
    rewrite HL; [|lia|destruct (Nat.ltb_spec 0 k); lia|]; clear HL.
    2: { intros i j Hi Hj C. apply BU; destruct (Nat.ltb_spec 0 k); lia. }
    cbn [obind]. pose proof (fr_right_mk n 0 (if k <? n - 3 then k + 4 else n)%nat k (k + 3) (hv_v 3 w) (hv_b 3 w) (hl n (shifted k (k + 3) (hv_v 3 w)) (hv_b 3 w) f)) as HR. replace (k + 3 - k)%nat with 3%nat in HR by lia.
    rewrite HR; [|destruct (Nat.ltb_spec k (n - 3)); lia|lia|]; clear HR.
    2: { intros i j Hj Hi C. destruct (Nat.ltb_spec k (n - 3)); [|lia]. rewrite hl_out by lia. apply BU; lia. }
    cbn [obind]. change (hr n (shifted k (k + 3) (hv_v 3 w)) (hv_b 3 w) (hl n (shifted k (k + 3) (hv_v 3 w)) (hv_b 3 w) f)) with fr_next. rewrite !mget_in by lia. cbn [obind].
    destruct (Nat.ltb_spec k (n - 3)); [rewrite mget_in by lia|]; reflexivity.
  Qed.
  Lemma fr_congruent : ~ bad_vec 3 w -> exists P, orthogonal n P /\ congruent n f P fr_next /\ ((0 < k)%nat -> forall i, P i 0%nat = id_entry i 0%nat) /\ (k = 0%nat -> forall i, norm2 3 w * P i 0%nat = if (i <? 3)%nat then w i else 0).
  Proof.
    intros G. exists (reflector V b). split; [|split; [apply two_sided|split]].
    - unfold V, b. pose proof (refl_orth n k (k + 3) w ltac:(lia)) as O. replace (k + 3 - k)%nat with 3%nat in O by lia. now apply O.
    - intros H i. unfold reflector. replace (V 0%nat) with 0; [ring|]. unfold V, shifted. now replace ((k <=? 0) && (0 <? k + 3))%nat with false by lia.
    - intros -> i. unfold reflector, V, shifted. replace ((0 <=? 0) && (0 <? 0 + 3))%nat with true by lia. rewrite Nat.sub_diag, hv_v0, Nat.sub_0_r. cbn [Nat.add]. destruct (Nat.ltb_spec i 3).
      + replace ((0 <=? i) && true)%nat with true by lia. rewrite Rmult_1_r. unfold b. now apply hv_column; [lia| |].
      + rewrite Bool.andb_false_r. unfold id_entry. destruct (Nat.eqb_spec i 0); [lia|]. cbn. ring.
  Qed.
End Step.

Lemma fr_fold n f0 w0 k : (k + 2 <= n)%nat -> (3 <= n)%nat -> hessenberg n f0 ->
  exists f w, foldM (fr_step n) (seq 0 k) (FrSt (mk n n f0) (w0 0%nat) (w0 1%nat) (w0 2%nat)) = Some (FrSt (mk n n f) (w 0%nat) (w 1%nat) (w 2%nat)) /\ bulge n k f /\
    (k = 0%nat -> w = w0 /\ f = f0) /\ ((0 < k)%nat -> forall i, (i < 3)%nat -> (k + i < n)%nat -> w i = f (k + i)%nat (k - 1)%nat) /\
    (forall i j, (k + 2 < i < n)%nat -> (j < n)%nat -> f i j = f0 i j) /\
    (~ bad_vec 3 w0 -> (forall j, (j + 1 < k)%nat -> 0 <= f (j + 1)%nat j) -> exists P, orthogonal n P /\ congruent n f0 P f /\ ((0 < k)%nat -> forall i, (i < n)%nat -> norm2 3 w0 * P i 0%nat = if (i <? 3)%nat then w0 i else 0)) /\
    (w0 2%nat <> 0 -> (forall i, (2 <= i)%nat -> (i + 1 < n)%nat -> f0 (i + 1)%nat i <> 0) -> ((k + 2 < n)%nat -> w 2%nat <> 0) /\ forall j, (j + 1 < k)%nat -> 0 < f (j + 1)%nat j).
Proof.
  intros Hk H3 HE. induction k as [|k IH].
  - exists f0, w0. split; [reflexivity|]. split; [intros i j Hi _; now apply HE|]. split; [auto|]. split; [lia|]. split; [auto|]. split.
    + intros _ _. exists id_entry. split; [apply orth_id|split; [apply congr_id|lia]].
    + intros N _. split; [auto|]. intros; lia.
  - destruct IH as (f & w & E & BU & Z0 & OWN & FAR & SIM & UNR); [lia|]. assert (k + 2 < n)%nat as Hk2 by lia.
    assert ((0 < k)%nat -> forall i, (i < 3)%nat -> w i = f (k + i)%nat (k - 1)%nat) as OWN' by (intros; apply OWN; lia).
    exists (fr_next n k f w), (vec3 (fr_next n k f w (k + 1)%nat k) (fr_next n k f w (k + 2)%nat k) (if (k <? n - 3)%nat then fr_next n k f w (k + 3)%nat k else w 2%nat)).
    rewrite seq_S, foldM_app, E. cbn [obind foldM Nat.add]. rewrite fr_step_mk by assumption. cbn [obind vec3].
    split; [reflexivity|]. split; [rewrite <- Nat.add_1_r; now apply fr_bulge|]. split; [lia|]. split; [|split; [|split]].
    + intros _ [|[|[|i]]] Hi Hn; try lia; cbn [vec3]; replace (S k - 1)%nat with k by lia; [f_equal; lia|f_equal; lia|]. destruct (Nat.ltb_spec k (n - 3)); [f_equal; lia|lia].
    + intros i j Hi Hj. rewrite fr_row_far by (assumption || lia). apply FAR; lia.
    + intros G P. destruct SIM as (Q & OQ & CQ & FQ); [exact G| |].
      * intros j Hj. rewrite <- (fr_kept n k f w) by (assumption || lia). apply P. lia.
      * destruct (fr_congruent n k f w Hk2 BU OWN') as (Q2 & O2 & C2 & F2 & F3).
        -- destruct (Nat.eq_dec k 0) as [->|N]; [destruct (Z0 eq_refl) as (-> & _); exact G|]. apply hv_head; [lia|]. pose proof (P (k - 1)%nat ltac:(lia)) as P1.
           replace (k - 1 + 1)%nat with k in P1 by lia. rewrite <- (Nat.add_0_r k) in P1 at 2. rewrite (fr_own n k f w) in P1 by (assumption || lia). exact P1.
        -- destruct (Nat.eq_dec k 0) as [->|N].
           ++ destruct (Z0 eq_refl) as (-> & ->). exists Q2. split; [exact O2|]. split; [exact C2|]. intros _ i _. now apply F3.
           ++ exists (prod_entry n Q Q2). split; [now apply orth_mul|]. split; [now apply (congr_trans n f0 Q f)|]. intros _ i Hi. rewrite <- (FQ ltac:(lia) i Hi). f_equal.
              unfold prod_entry. rewrite (rsum_ext n _ (fun l => Q i l * id_entry l 0%nat)) by (intros l Hl; rewrite F2 by lia; reflexivity). apply rsum_id_r. lia.
    + intros N0 UN. destruct (UNR N0 UN) as (W & POS). specialize (W Hk2). destruct (hv_last_nonzero 3 w 2 ltac:(lia) W) as (T & B & V2 & G & NP). split.
      * intros H. cbn [vec3]. destruct (Nat.ltb_spec k (n - 3)); [|lia]. rewrite fr_corner by (assumption || lia). rewrite FAR by lia. intros K. apply Ropp_eq_0_compat in K. rewrite Ropp_involutive in K.
        apply Rmult_integral in K. destruct K as [K|K]; [apply Rmult_integral in K; now destruct K|]. revert K. replace (k + 3)%nat with (k + 2 + 1)%nat by lia. apply UN; lia.
      * intros j Hj. destruct (Nat.eq_dec (j + 1) k) as [Ej|Ej].
        -- rewrite Ej. replace j with (k - 1)%nat by lia. rewrite <- (Nat.add_0_r k) at 2. rewrite fr_own by (assumption || lia). pose proof (hv_reflects 3 w 0%nat ltac:(lia) G ltac:(lia)) as R. cbn [Nat.eqb] in R. rewrite R. exact NP.
        -- rewrite fr_kept by (assumption || lia). apply POS. lia.
Qed.
(** The last step, with a vector of length two. *)
Lemma fr_last n f w : (3 <= n)%nat -> bulge n (n - 2) f -> (forall i, (i < 2)%nat -> w i = f (n - 2 + i)%nat (n - 3)%nat) ->
  exists g, (do M <- fr_left (mk n n f) (n - 2) n (n - 3) n (mk 2 1 (fun i _ => hv_v 2 w i)) (hv_b 2 w); fr_right M 0 n (n - 2) n (mk 2 1 (fun i _ => hv_v 2 w i)) (hv_b 2 w)) = Some (mk n n g) /\
    hessenberg n g /\ (forall j, (j + 3 < n)%nat -> g (j + 1)%nat j = f (j + 1)%nat j) /\ (0 <= g (n - 2)%nat (n - 3)%nat -> exists P, orthogonal n P /\ congruent n f P g /\ forall i, P i 0%nat = id_entry i 0%nat).
Proof.
  intros Hn BU OWN. set (V := shifted (n - 2) n (hv_v 2 w)). set (b := hv_b 2 w). exists (hr n V b (hl n V b f)).
  pose proof (fr_left_mk n (n - 2) n (n - 3) n (hv_v 2 w) b f ltac:(lia) ltac:(lia)) as HL. replace (n - (n - 2))%nat with 2%nat in HL by lia.
  rewrite HL by (intros i j Hi Hj C; apply BU; lia). clear HL. cbn [obind].
  pose proof (fr_right_mk n 0 n (n - 2) n (hv_v 2 w) b (hl n V b f) ltac:(lia) ltac:(lia)) as HR. replace (n - (n - 2))%nat with 2%nat in HR by lia.
  unfold V, b in HR. unfold V, b. rewrite HR by (intros i j Hj Hi C; lia). clear HR. split; [reflexivity|]. fold b. fold V.
  assert (forall i, (n - 2 <= i < n)%nat -> hr n V b (hl n V b f) i (n - 3)%nat = w (i - (n - 2))%nat - b * hv_v 2 w (i - (n - 2)) * inner 2 (hv_v 2 w) w) as OW.
  { intros i Hi. unfold V at 1. rewrite hr_out by lia. pose proof (hl_own n (n - 2) n f (n - 3) w i ltac:(lia)) as K. replace (n - (n - 2))%nat with 2%nat in K by lia. apply K; [|exact Hi]. intros l Hl. symmetry. now apply OWN. }
  split; [|split].
  - intros i j Hi. destruct (Nat.eq_dec j (n - 3)) as [->|N].
    + rewrite OW by lia. unfold b. apply hv_clears; lia.
    + unfold V at 1. rewrite hr_out by lia. unfold V. rewrite hl_zero_col by (try lia; intros r Hr; apply BU; lia). apply BU; lia.
  - intros j Hj. unfold V at 1. rewrite hr_out by lia. unfold V. apply hl_zero_col; [lia|]. intros r Hr. apply BU; lia.
  - intros P. rewrite OW in P by lia. rewrite Nat.sub_diag in P. exists (reflector V b). split; [|split; [apply two_sided|]].
    2: { intros i. unfold reflector. replace (V 0%nat) with 0; [ring|]. unfold V, shifted. now replace ((n - 2 <=? 0) && (0 <? n))%nat with false by lia. }
    pose proof (refl_orth n (n - 2) n w ltac:(lia)) as O. replace (n - (n - 2))%nat with 2%nat in O by lia. apply O. apply hv_head; [lia|exact P].
Qed.
(** The whole step. *)
Definition fr_vec (n : nat) (f : nat -> nat -> R) : nat -> R :=
  let s := f (n - 2)%nat (n - 2)%nat + f (n - 1)%nat (n - 1)%nat in
  let t := f (n - 2)%nat (n - 2)%nat * f (n - 1)%nat (n - 1)%nat - f (n - 2)%nat (n - 1)%nat * f (n - 1)%nat (n - 2)%nat in
  vec3 (f 0%nat 0%nat * f 0%nat 0%nat + f 0%nat 1%nat * f 1%nat 0%nat - s * f 0%nat 0%nat + t) (f 1%nat 0%nat * (f 0%nat 0%nat + f 1%nat 1%nat - s)) (f 1%nat 0%nat * f 2%nat 1%nat).
Lemma fr_first_mk n f : (3 <= n)%nat -> fr_first n (mk n n f) = Some (fr_vec n f 0%nat, fr_vec n f 1%nat, fr_vec n f 2%nat).
Proof.
  intros H. unfold fr_first, usub. replace (2 <=? n)%nat with true by lia. replace (1 <=? n)%nat with true by lia. cbn [obind]. rewrite !mget_in by lia. cbn [obind]. reflexivity.
Qed.
Lemma shift_column_fr n f i : (3 <= n)%nat -> hessenberg n f -> (i < n)%nat -> shift_column n f i = if (i <? 3)%nat then fr_vec n f i else 0.
Proof.
  intros Hn HE Hi. unfold shift_column. assert (prod_entry n f f i 0%nat = f i 0%nat * f 0%nat 0%nat + f i 1%nat * f 1%nat 0%nat) as ->.
  { unfold prod_entry. rewrite (rsum_split n 2) by lia. rewrite (rsum_zero (n - 2)). - cbn [sum]. cbn. ring. - intros k Hk. rewrite (HE (2 + k)%nat 0%nat) by lia. cbn. ring. }
  destruct (Nat.ltb_spec i 3).
  - unfold fr_vec, id_entry. destruct i as [|[|[|i]]]; [| | |lia]; cbn [vec3 Nat.eqb]; try rewrite (HE 2%nat 0%nat) by lia; cbn; ring.
  - rewrite (HE i 0%nat), (HE i 1%nat) by lia. unfold id_entry. destruct (Nat.eqb_spec i 0); [lia|]. cbn. ring.
Qed.
Lemma norm_shift n f : (3 <= n)%nat -> hessenberg n f -> norm2 n (shift_column n f) = norm2 3 (fr_vec n f).
Proof.
  intros Hn HE. unfold norm2, inner. f_equal. rewrite (rsum_split n 3) by lia. rewrite (rsum_zero (n - 3)).
  - rewrite Rplus_0_r. apply rsum_ext. intros k Hk. rewrite shift_column_fr by (assumption || lia). replace (k <? 3)%nat with true by lia. reflexivity.
  - intros k Hk. rewrite shift_column_fr by (assumption || lia). replace (3 + k <? 3)%nat with false by lia. ring.
Qed.
Theorem francis_mk n f op : (3 <= n)%nat -> hessenberg n f ->
  exists g, raw_francis_step (mk n n f) op = Some (mk n n g, mk (if op then n else 1%nat) (if op then n else 1%nat) id_entry) /\ hessenberg n g /\
    (~ bad_vec 3 (fr_vec n f) -> (forall j, (j + 2 < n)%nat -> 0 <= g (j + 1)%nat j) -> double_shift n f g) /\
    ((forall i, (i + 1 < n)%nat -> f (i + 1)%nat i <> 0) -> (forall j, (j + 3 < n)%nat -> 0 < g (j + 1)%nat j) /\ (0 <= g (n - 2)%nat (n - 3)%nat -> double_shift n f g)).
Proof.
  intros Hn HE. destruct (fr_fold n f (fr_vec n f) (n - 2) ltac:(lia) Hn HE) as (h & w & E & BU & _ & OWN & _ & SIM & UNR).
  assert (forall i, (i < 2)%nat -> w i = h (n - 2 + i)%nat (n - 3)%nat) as OW by (intros i Hi; rewrite OWN by lia; f_equal; lia).
  destruct (fr_last n h w Hn BU OW) as (g & E2 & HG & KEEP & SIM2). exists g.
  assert (~ bad_vec 3 (fr_vec n f) -> (forall j, (j + 2 < n)%nat -> 0 <= g (j + 1)%nat j) -> double_shift n f g) as S.
  { intros G P. destruct SIM as (Q & OQ & CQ & FQ); [exact G|intros j Hj; rewrite <- KEEP by lia; apply P; lia|]. destruct SIM2 as (Q2 & O2 & C2 & F2); [replace (n - 2)%nat with (n - 3 + 1)%nat by lia; apply P; lia|].
    exists (prod_entry n Q Q2). split; [now apply orth_mul|]. split; [now apply (congr_trans n f Q h)|]. intros i Hi. rewrite norm_shift by assumption. rewrite (shift_column_fr n f i) by assumption. rewrite <- (FQ ltac:(lia) i Hi). f_equal.
    unfold prod_entry. rewrite (rsum_ext n _ (fun l => Q i l * id_entry l 0%nat)) by (intros l Hl; rewrite F2; reflexivity). apply rsum_id_r. lia. }
  split; [|split; [exact HG|split; [exact S|]]].
  - unfold raw_francis_step. cbn [nr nc mk]. fold (mk n n f). rewrite Nat.eqb_refl. rewrite midentity_mk by (destruct op; lia). cbn [obind]. rewrite fr_first_mk by exact Hn. cbn [obind fst snd].
    unfold usub. replace (2 <=? n)%nat with true by lia. replace (3 <=? n)%nat with true by lia. cbn [obind]. unfold rng. rewrite Nat.sub_0_r, E. cbn [obind f_x f_y f_m]. rewrite (col_vec2 _ _ (w 2%nat)), householder_mk by lia. cbn [obind fst snd].
    destruct (hv_ext 2 (vec3 (w 0%nat) (w 1%nat) (w 2%nat)) w) as (Eb & Ev); [intros [|[|i]] Hi; (reflexivity || lia)|lia|].
    rewrite Eb. rewrite (mk_ext 2 1 _ (fun i _ => hv_v 2 w i)) by (intros i j Hi Hj; now apply Ev).
    destruct (fr_left (mk n n h) (n - 2) n (n - 3) n (mk 2 1 (fun i _ => hv_v 2 w i)) (hv_b 2 w)) as [M1|]; [|discriminate]. cbn [obind] in *. rewrite E2. reflexivity.
  - intros UN. assert (fr_vec n f 2%nat <> 0) as W0 by (unfold fr_vec; cbn [vec3]; intros K; apply Rmult_integral in K; destruct K as [K|K]; [apply (UN 0%nat); [lia|exact K]|apply (UN 1%nat); [lia|exact K]]).
    destruct (UNR W0 ltac:(intros; apply UN; lia)) as (_ & POS).
    assert (forall j, (j + 3 < n)%nat -> 0 < g (j + 1)%nat j) as PG by (intros j Hj; rewrite KEEP by exact Hj; apply POS; lia).
    split; [exact PG|]. intros P. apply S; [apply (hv_last_nonzero 3 (fr_vec n f) 2 ltac:(lia) W0)|]. intros j Hj. destruct (Nat.eq_dec (j + 3) n) as [Ej|Ej]; [|left; apply PG; lia]. replace (j + 1)%nat with (n - 2)%nat by lia. replace j with (n - 3)%nat by lia. exact P.
Qed.
