(** Property C151: which laws of matrix arithmetic survive rounding at the type [f64]. *)
From Coq Require Import ZArith Reals Lra Lia List Arith Bool.
From Flocq Require Import Core IEEE754.BinarySingleNaN.
From Verif Require Import PidModel MatModel MatSpec MatProofs MatProofs2 RankModel LuModel FloatModel FloatSpec FloatProofs FloatProofs3 FloatProofs5 GeomFloatProofs RatFloatModel RatFloatProps NormFloatModel NormFloatProofs SparseFloatProofs SparseFloatProps IntFloatProps.
Import ListNotations.
Open Scope nat_scope.

Lemma f_add_comm x y : f_add x y = f_add y x.
Proof.
  unfold f_add. destruct x as [sx|sx| |sx mx ex Hx], y as [sy|sy| |sy my ey Hy]; try reflexivity; try (destruct sx, sy; reflexivity).
  unfold Bplus. rewrite Z.min_comm. f_equal. unfold Fplus_naive. apply Z.add_comm.
Qed.
Lemma sum_eq (f g : nat -> binary64) n : (forall k, k < n -> f k = g k) -> sum n f = sum n g.
Proof. intros H. induction n as [|n IH]; [reflexivity|]. cbn [sum]. rewrite IH, (H n) by lia || (intros; apply H; lia). reflexivity. Qed.
(** C151.  Sums commute bit for bit, and transposing reverses products bit for bit. *)
Theorem C151_add_comm : forall A B : mat binary64, wf A -> wf B -> madd A B = madd B A.
Proof.
  intros A B WA WB. destruct (Nat.eq_dec (nr A) (nr B)) as [R|R]; [destruct (Nat.eq_dec (nc A) (nc B)) as [C|C]|].
  - rewrite (wf_eq_mk A WA), (wf_eq_mk B WB), R, C. unfold madd. rewrite !mzip_mk. f_equal. apply mk_ext. intros i j _ _. apply f_add_comm.
  - unfold madd, mzip. replace (nc A =? nc B) with false by (symmetry; now apply Nat.eqb_neq). replace (nc B =? nc A) with false by (symmetry; apply Nat.eqb_neq; congruence). now rewrite !andb_false_r.
  - unfold madd, mzip. replace (nr A =? nr B) with false by (symmetry; now apply Nat.eqb_neq). replace (nr B =? nr A) with false by (symmetry; apply Nat.eqb_neq; congruence). reflexivity.
Qed.
Print Assumptions C151_add_comm.
Theorem C151_transpose_product : forall A B P : mat binary64, wf A -> wf B -> nc A = nr B -> mmul A B = Some P ->
  exists At Bt Pt, mtranspose A = Some At /\ mtranspose B = Some Bt /\ mtranspose P = Some Pt /\ mmul Bt At = Some Pt.
Proof.
  intros A B P WA WB C E. rewrite (wf_eq_mk A WA), (wf_eq_mk B WB) in *. cbn [nr nc mk] in C. rewrite <- C in *. rewrite mmul_mk in E. injection E as <-. rewrite !mtranspose_mk.
  do 3 eexists. split; [reflexivity|]. split; [reflexivity|]. split; [reflexivity|]. rewrite mmul_mk. f_equal. apply mk_ext. intros i j Hi Hj. unfold prod_entry. apply sum_eq. intros k Hk. apply f_mul_comm.
Qed.
Print Assumptions C151_transpose_product.

(** The Gram matrix is exactly symmetric, whatever is rounded or overflows; without a not-a-number in [A] its diagonal is not negative and a number. *)
Lemma square_upper x : is_nan x = false -> upper (f_mul x x).
Proof.
  intros N. destruct x as [s|s| |s m e H]; try discriminate N; try (destruct s; split; reflexivity).
  pose proof (Bmult_correct 53 1024 _ _ mode_NE (B754_finite s m e H) (B754_finite s m e H)) as B. unfold upper, f_mul. destruct (Rlt_bool _ _) in B.
  - destruct B as (_ & F & S). assert (Q : is_nan (Bmult mode_NE (B754_finite s m e H : binary64) (B754_finite s m e H)) = false) by (destruct (Bmult mode_NE _ _); try reflexivity; discriminate F).
    split; [exact Q|]. rewrite (S Q). cbn [Bsign]. apply xorb_nilpotent.
  - rewrite overflow_inf in B. cbn [Bsign] in B. rewrite xorb_nilpotent in B. destruct (Bmult mode_NE _ _); cbn in B; try discriminate B. split; [reflexivity|]. injection B as ->. reflexivity.
Qed.
Theorem C151_gram : forall A : mat binary64, wf A ->
  exists At G, mtranspose A = Some At /\ mmul At A = Some G /\ wf G /\ nr G = nc A /\ nc G = nc A /\
    (forall i j, i < nc A -> j < nc A -> ent G i j = ent G j i) /\
    ((forall i j, i < nr A -> j < nc A -> is_nan (ent A i j) = false) -> forall i, i < nc A -> is_nan (ent G i i) = false /\ Bleb f_zero (ent G i i) = true).
Proof.
  intros A WA. rewrite (wf_eq_mk A WA). rewrite mtranspose_mk. cbn [nr nc mk]. do 2 eexists. split; [reflexivity|]. split; [apply mmul_mk|]. split; [apply wf_mk|]. split; [reflexivity|]. split; [reflexivity|]. split.
  - intros i j Hi Hj. rewrite !ent_mk by assumption. unfold prod_entry. apply sum_eq. intros k Hk. apply f_mul_comm.
  - intros N i Hi. rewrite ent_mk by assumption. assert (U : upper (prod_entry (nr A) (fun i j => ent A j i) (ent A) i i)).
    { unfold prod_entry. apply upper_sum. intros l Hl. apply square_upper. specialize (N l i Hl Hi). now rewrite ent_mk in N by assumption. }
    split; [apply U|]. destruct (upper_cases _ U) as [[F P]|E]; [|rewrite E; reflexivity]. rewrite Bleb_correct by (reflexivity || exact F). apply Rle_bool_true. exact P.
Qed.
Print Assumptions C151_gram.
(** Multiplying by the identity keeps every finite matrix (up to the sign of zeros); an infinite entry spoils its row. *)
Theorem C151_identity : forall A : mat binary64, wf A -> 0 < nc A -> finite_mat A ->
  exists I P, midentity (nc A) = Some I /\ mmul A I = Some P /\ nr P = nr A /\ nc P = nc A /\
    forall i j, i < nr A -> j < nc A -> finite (ent P i j) /\ rent P i j = rent A i j.
Proof.
  intros A WA Hn FA. exists (mk (nc A) (nc A) id_entry), (mk (nr A) (nc A) (prod_entry (nc A) (ent A) id_entry)). split; [now apply midentity_mk|].
  split; [rewrite (wf_eq_mk A WA) at 1; apply mmul_mk|]. split; [reflexivity|]. split; [reflexivity|]. intros i j Hi Hj. unfold rent. rewrite ent_mk by assumption. unfold prod_entry. rewrite sum_facc.
  assert (SK : forall k s, k <> j -> k < nc A -> not_minus_zero s -> tadd s (tmul (ent A i k) (id_entry k j)) = s).
  { intros k s Nk Hk Hs. unfold id_entry. replace (k =? j) with false by (symmetry; now apply Nat.eqb_neq). change (f_add s (f_mul (ent A i k) f_zero) = s). rewrite f_mul_comm. apply add_zero_product; [exact Hs|now apply FA]. }
  rewrite (seq_split (nc A) j) by exact Hj. rewrite facc_app.
  rewrite (facc_skip not_minus_zero (seq 0 j)) by (first [exact zero_not_minus|intros k s Hk Hs; apply in_seq in Hk; apply SK; [lia|lia|exact Hs]]).
  change (facc (j :: ?l) ?h ?x) with (facc l h (tadd x (h j))). cbn beta.
  rewrite (facc_skip not_minus_zero) by (first [apply add_not_minus_zero, zero_not_minus|intros k s Hk Hs; apply in_seq in Hk; apply SK; [lia|lia|exact Hs]]).
  unfold id_entry. rewrite Nat.eqb_refl. change (finite (f_add f_zero (f_mul (ent A i j) f_one)) /\ val (f_add f_zero (f_mul (ent A i j) f_one)) = val (ent A i j)).
  specialize (FA i j Hi Hj). set (x := ent A i j) in *. clearbody x. clear -FA.
  assert (RX : rnd (val x) = val x) by (apply round_generic; [typeclasses eauto|apply generic_format_B2R]).
  assert (HB : (Rabs (val x) < bpow radix2 1024)%R) by apply abs_B2R_lt_emax.
  assert (FM : finite (f_mul x f_one) /\ val (f_mul x f_one) = val x).
  { pose proof (Bmult_correct 53 1024 _ _ mode_NE x f_one) as B. fold (val x) (val f_one) in B. rewrite val_one, Rmult_1_r in B. change (round radix2 (SpecFloat.fexp 53 1024) (round_mode mode_NE) (val x)) with (rnd (val x)) in B. rewrite RX in B.
    rewrite Rlt_bool_true in B by exact HB. destruct B as (V & F & _). split; [unfold finite, f_mul; rewrite F; unfold finite in FA; now rewrite FA|exact V]. }
  destruct FM as (FM & VM). pose proof (Bplus_correct 53 1024 _ _ mode_NE f_zero (f_mul x f_one) eq_refl FM) as B. fold (val (f_mul x f_one)) in B. rewrite VM in B. change (B2R f_zero) with 0%R in B. rewrite Rplus_0_l in B.
  change (round radix2 (SpecFloat.fexp 53 1024) (round_mode mode_NE) (val x)) with (rnd (val x)) in B. rewrite RX in B. rewrite Rlt_bool_true in B by exact HB. destruct B as (V & F & _). split; [exact F|exact V].
Qed.
Print Assumptions C151_identity.
(** Refuted: addition is not associative, and the identity does not keep an infinite matrix. *)
Definition one_by_one (x : binary64) : mat binary64 := mk 1 1 (fun _ _ => x).
Theorem C151_add_assoc_refuted : exists A B C P Q R S, wf A /\ wf B /\ wf C /\ finite_mat A /\ finite_mat B /\ finite_mat C /\
  madd A B = Some P /\ madd P C = Some Q /\ madd B C = Some R /\ madd A R = Some S /\ rent Q 0 0 = (2 ^ 53)%R /\ rent S 0 0 = (2 ^ 53 + 2)%R.
Proof.
  assert (I : forall z, (Z.abs z <= 2 ^ 53)%Z -> is_int (f_of_int z) z) by (intros z Hz; split; [apply of_int_val; lia|now apply of_int_exact]).
  exists (one_by_one (f_of_int (2 ^ 53))), (one_by_one (f_of_int 1)), (one_by_one (f_of_int 1)). unfold one_by_one, madd. do 4 eexists.
  split; [apply wf_mk|]. split; [apply wf_mk|]. split; [apply wf_mk|].
  assert (FM : forall z, (Z.abs z <= 2 ^ 53)%Z -> finite_mat (mk 1 1 (fun _ _ => f_of_int z))) by (intros z Hz i j Hi Hj; cbn [nr nc mk] in Hi, Hj; rewrite ent_mk by assumption; now apply I).
  split; [apply FM; lia|]. split; [apply FM; lia|]. split; [apply FM; lia|]. do 4 (split; [apply mzip_mk|]).
  unfold rent. rewrite !ent_mk by lia. change (2 ^ 53)%R with (2 ^ 53)%R. split.
  - transitivity (val (f_of_int (2 ^ 53))); [|rewrite of_int_exact by lia; now rewrite pow_IZR]. unfold val. rewrite <- !SF2R_B2SF. f_equal.
  - transitivity (val (f_of_int (2 ^ 53 + 2))); [unfold val; rewrite <- !SF2R_B2SF; f_equal|]. transitivity (val (f_add (f_of_int (2 ^ 53)) (f_of_int 2))); [unfold val; rewrite <- !SF2R_B2SF; f_equal|].
    transitivity (SF2R radix2 (B2SF (f_of_int (2 ^ 53 + 2)))); [unfold val; rewrite <- SF2R_B2SF; f_equal|]. cbn. unfold F2R. cbn. lra.
Qed.
Print Assumptions C151_add_assoc_refuted.
Theorem C151_infinite_refuted : exists A I P, midentity 2 = Some I /\ mmul A I = Some P /\ ent A 0 0 = B754_infinity false /\ ent A 0 1 = f_zero /\ ent P 0 1 = B754_nan.
Proof.
  exists (mk 1 2 (fun i j => if j =? 0 then B754_infinity false else f_zero)), (mk 2 2 id_entry). eexists. split; [apply midentity_mk; lia|]. split; [apply mmul_mk|]. rewrite !ent_mk by lia. split; [reflexivity|]. split; [reflexivity|]. vm_compute. reflexivity.
Qed.
Print Assumptions C151_infinite_refuted.
(** The hypotheses of C151 are met: a matrix whose product with its transpose overflows, rounds and meets a negative zero. *)
Example C151_nontrivial : let A := mk 2 2 (fun i j => if i =? j then f_of_int (2 ^ 53 - 1) else B754_zero true) in
  wf A /\ 0 < nc A /\ finite_mat A /\ forall i j, i < nr A -> j < nc A -> is_nan (ent A i j) = false.
Proof.
  cbn zeta. split; [apply wf_mk|]. split; [cbn; lia|]. split; intros i j Hi Hj; cbn [nr nc mk] in Hi, Hj; rewrite ent_mk by assumption; destruct (i =? j); vm_compute; reflexivity.
Qed.
