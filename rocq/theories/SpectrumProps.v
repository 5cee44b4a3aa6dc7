(** C82: [spectrum], over the real numbers. *)
From Coq Require Import List Arith Bool Lia ZifyBool Reals Lra Permutation.
From Verif Require Import PidModel MatModel MatSpec MatProofs MatProofs2 SnfModel SnfProofs2 RankModel LuModel LuSpec LuProofs2 LuProofs3 NumModel NumSpec NumProofs HouseProofs HessProofs HessProps FrancisModel FrancisSpec FrancisProofs FrancisProps QrProofs EigProofs QrProps.
Import ListNotations.
Open Scope R_scope.

(** Every subdiagonal entry is zero, or not below the threshold under which it is ignored. *)
Definition well_split (n : nat) (eps : R) (A : nat -> nat -> R) : Prop := forall i, (i + 1 < n)%nat -> A (i + 1)%nat i = 0 \/ eps <= Rabs (A (i + 1)%nat i).
(** The entries of a column vector, from small to large. *)
Definition ascending (n : nat) (v : nat -> nat -> R) : Prop := forall i, (i + 1 < n)%nat -> v i 0%nat <= v (i + 1)%nat 0%nat.
Definition symmetric (n : nat) (A : nat -> nat -> R) : Prop := forall i j, (i < n)%nat -> (j < n)%nat -> A i j = A j i.

(** Sorting. *)
Lemma rinsert_perm x l : Permutation (x :: l) (rinsert x l).
Proof. induction l as [|y l IH]; cbn; [reflexivity|]. destruct (rleb x y); [reflexivity|]. rewrite perm_swap. now apply perm_skip. Qed.
Lemma rsort_perm l : Permutation l (rsort l).
Proof. induction l as [|x l IH]; cbn; [reflexivity|]. rewrite <- rinsert_perm. now apply perm_skip. Qed.
Fixpoint up (l : list R) : Prop := match l with [] => True | x :: t => match t with [] => True | y :: _ => x <= y /\ up t end end.
Lemma rinsert_up x l : up l -> up (rinsert x l).
Proof.
  induction l as [|y l IH]; intros U; [exact I|]. cbn [rinsert]. destruct (rleb_spec x y) as [L|L]; [split; [exact L|exact U]|]. destruct l as [|z l]; [split; [lra|exact I]|].
  destruct U as (U1 & U2). specialize (IH U2). cbn [rinsert] in *. destruct (rleb x z); [split; [lra|exact IH]|split; [exact U1|exact IH]].
Qed.
Lemma rsort_up l : up (rsort l). Proof. induction l as [|x l IH]; [exact I|]. now apply rinsert_up. Qed.
Lemma up_nth l : up l -> forall i, (i + 1 < length l)%nat -> nth i l 0 <= nth (i + 1) l 0.
Proof.
  induction l as [|x l IH]; intros U i Hi; cbn in Hi; [lia|]. destruct l as [|y l]; [cbn in Hi; lia|]. destruct U as (U1 & U2). destruct i as [|i]; [exact U1|]. cbn [nth Nat.add]. apply (IH U2). cbn in *. lia.
Qed.
Definition lsum (l : list R) : R := fold_right Rplus 0 l.
Lemma lsum_perm l l' : Permutation l l' -> lsum l = lsum l'. Proof. intros P. induction P; unfold lsum in *; cbn [fold_right] in *; lra. Qed.
Lemma lsum_nth l : lsum l = sum (length l) (fun i => nth i l 0).
Proof. induction l as [|x l IH]; [reflexivity|]. cbn [length lsum fold_right]. rewrite rsum_first. cbn [nth]. f_equal. exact IH. Qed.
(** Order two. *)
Lemma two_mk g : real_spectrum_of_two_by_two (mk 2 2 g) = Some (let m := (g 0%nat 0%nat + g 1%nat 1%nat) / 2 in let d := m * m - (g 0%nat 0%nat * g 1%nat 1%nat - g 0%nat 1%nat * g 1%nat 0%nat) in if rltb 0 d then Some (m - sqrt d, m + sqrt d) else None).
Proof. reflexivity. Qed.
Lemma two_values g x y : real_spectrum_of_two_by_two (mk 2 2 g) = Some (Some (x, y)) -> x + y = g 0%nat 0%nat + g 1%nat 1%nat /\ x < y /\ forall l, (l = x \/ l = y) <-> eigenvalue 2 g l.
Proof.
  rewrite two_mk. cbn zeta. set (m := (g 0%nat 0%nat + g 1%nat 1%nat) / 2). set (d := m * m - (g 0%nat 0%nat * g 1%nat 1%nat - g 0%nat 1%nat * g 1%nat 0%nat)). destruct (rltb_spec 0 d) as [L|L]; [|discriminate]. intros [= <- <-].
  pose proof (sqrt_lt_R0 d L) as SP. pose proof (sqrt_sqrt d ltac:(lra)) as SS. split; [unfold m; lra|]. split; [lra|]. intros l. rewrite eig_two.
  assert (l * l - (g 0%nat 0%nat + g 1%nat 1%nat) * l + (g 0%nat 0%nat * g 1%nat 1%nat - g 0%nat 1%nat * g 1%nat 0%nat) = (l - (m - sqrt d)) * (l - (m + sqrt d))) as ->.
  { replace ((l - (m - sqrt d)) * (l - (m + sqrt d))) with ((l - m) * (l - m) - sqrt d * sqrt d) by ring. rewrite SS. unfold d, m. field. }
  split; [intros [->| ->]; ring|]. intros E. apply Rmult_integral in E. lra.
Qed.
Lemma window_window p q A i j : window q (window p A) i j = window (p + q) A i j. Proof. unfold window. now rewrite !Nat.add_assoc. Qed.
(** The values read off the diagonal blocks. *)
Lemma blocks_spec n h fuel : hessenberg n h -> forall i l, (i <= n)%nat -> blocks fuel (mk n n h) i = Some l -> length l = (n - i)%nat /\ lsum l = trace (n - i) (window i h) /\
  (small_blocks n tolerance h -> well_split n (/ 100000000000) h -> forall x, In x l <-> eigenvalue (n - i) (window i h) x).
Proof.
  intros HE. induction fuel as [|fuel IH]; intros i l Hi E.
  - cbn [blocks] in E. rewrite nr_mk in E. destruct (Nat.ltb_spec i n); [discriminate|]. injection E as <-. replace (n - i)%nat with 0%nat by lia. split; [reflexivity|]. split; [reflexivity|]. intros _ _ x. split; [intros []|]. intros (y & (k & Hk & _) & _). lia.
  - cbn [blocks] in E. rewrite nr_mk in E. destruct (Nat.ltb_spec i n) as [L|L].
    2: { injection E as <-. replace (n - i)%nat with 0%nat by lia. split; [reflexivity|]. split; [reflexivity|]. intros _ _ x. split; [intros []|]. intros (y & (k & Hk & _) & _). lia. }
    assert (forall sg, (if (i =? n - 1)%nat then Some true else do x <- mget (mk n n h) (i + 1) i; Some (rltb (Rabs x) (/ 100000000000))) = Some sg -> sg = if (i =? n - 1)%nat then true else rltb (Rabs (h (i + 1)%nat i)) (/ 100000000000)) as SG.
    { intros sg. destruct (Nat.eqb_spec i (n - 1)); [now intros [= <-]|]. rewrite mget_in by lia. cbn [obind]. now intros [= <-]. }
    destruct (if (i =? n - 1)%nat then Some true else do x <- mget (mk n n h) (i + 1) i; Some (rltb (Rabs x) (/ 100000000000))) as [sg|]; [|discriminate]. specialize (SG sg eq_refl). cbn [obind] in E. destruct sg.
    + rewrite mget_in in E by lia. cbn [obind] in E. destruct (blocks fuel (mk n n h) (i + 1)) as [l'|] eqn:E'; [|discriminate]. cbn [obind] in E. injection E as <-. destruct (IH (i + 1)%nat l' ltac:(lia) E') as (LN & SM & EX).
      split; [cbn [length]; lia|]. split.
      * rewrite (trace_split (n - i) 1) by lia. cbn [lsum fold_right]. fold (lsum l'). rewrite SM. f_equal; [unfold trace, window; cbn; rewrite Nat.add_0_r; ring|]. replace (n - i - 1)%nat with (n - (i + 1))%nat by lia. apply trace_ext. intros k Hk. now rewrite window_window.
      * intros SB WS x. rewrite (eig_block (n - i) 1); [|lia|].
        -- rewrite eig_one. unfold window at 1. rewrite Nat.add_0_r. replace (n - i - 1)%nat with (n - (i + 1))%nat by lia.
           assert (eigenvalue (n - (i + 1)) (window 1 (window i h)) x <-> eigenvalue (n - (i + 1)) (window (i + 1) h) x) as -> by (split; apply eig_ext; intros a b Ha Hb; now rewrite window_window).
           rewrite <- (EX SB WS x). cbn [In]. intuition congruence.
        -- intros a b Ha Hb. unfold window. replace b with 0%nat by lia. rewrite Nat.add_0_r. destruct (Nat.eq_dec a 1) as [->|N]; [|apply HE; lia]. destruct (Nat.eqb_spec i (n - 1)); [lia|].
           destruct (rltb_spec (Rabs (h (i + 1)%nat i)) (/ 100000000000)) as [Q|Q]; [|discriminate]. destruct (WS i ltac:(lia)) as [W|W]; [exact W|lra].
    + destruct (Nat.eqb_spec i (n - 1)) as [K|K]; [discriminate|]. destruct (rltb_spec (Rabs (h (i + 1)%nat i)) (/ 100000000000)) as [Q|Q]; [discriminate|].
      rewrite msub_view_mk in E by lia. cbn [obind] in E. replace (i + 2 - i)%nat with 2%nat in E by lia. change (fun i0 j : nat => h (i + i0)%nat (i + j)%nat) with (window i h) in E.
      destruct (real_spectrum_of_two_by_two (mk 2 2 (window i h))) as [[(x1 & x2)|]|] eqn:E2; cbn [obind] in E; try discriminate. destruct (blocks fuel (mk n n h) (i + 2)) as [l'|] eqn:E'; [|discriminate]. cbn [obind] in E. injection E as <-.
      destruct (two_values _ _ _ E2) as (TR & _ & EV). destruct (IH (i + 2)%nat l' ltac:(lia) E') as (LN & SM & EX). split; [cbn [length]; lia|]. split.
      * rewrite (trace_split (n - i) 2) by lia. cbn [lsum fold_right]. fold (lsum l'). rewrite SM. rewrite <- Rplus_assoc, TR. f_equal; [unfold trace; cbn; ring|]. replace (n - i - 2)%nat with (n - (i + 2))%nat by lia. apply trace_ext. intros k Hk. now rewrite window_window.
      * intros SB WS x. rewrite (eig_block (n - i) 2); [|lia|].
        -- replace (n - i - 2)%nat with (n - (i + 2))%nat by lia. rewrite <- EV.
           assert (eigenvalue (n - (i + 2)) (window 2 (window i h)) x <-> eigenvalue (n - (i + 2)) (window (i + 2) h) x) as -> by (split; apply eig_ext; intros a b Ha Hb; now rewrite window_window).
           rewrite <- (EX SB WS x). cbn [In]. intuition congruence.
        -- intros a b Ha Hb. unfold window. destruct (Nat.eq_dec a (b + 1)) as [->|N]; [|apply HE; lia]. replace b with 1%nat by lia. replace (i + (1 + 1))%nat with (i + 1 + 1)%nat by lia. destruct (WS (i + 1)%nat ltac:(lia)) as [W|W]; [exact W|].
           assert (tolerance < / 100000000000) as TT by (unfold tolerance; apply Rinv_lt_contravar; lra). destruct (SB i ltac:(lia)) as [V|V]; [lra|]. replace (i + 2)%nat with (i + 1 + 1)%nat in V by lia. lra.
Qed.
Lemma sorted_column n l : length l = n -> mbuild n 1 (fun i _ => nth_error (rsort l) i) = Some (mk n 1 (fun i _ => nth i (rsort l) 0)).
Proof.
  intros L. apply mbuild_some. intros i j Hi Hj. apply nth_error_nth'. rewrite <- (Permutation_length (rsort_perm l)). lia.
Qed.
Lemma in_sorted l x n : length l = n -> (In x l <-> exists i, (i < n)%nat /\ ent (mk n 1 (fun i _ => nth i (rsort l) 0)) i 0 = x).
Proof.
  intros L. pose proof (Permutation_length (rsort_perm l)) as PL. split.
  - intros I. apply (Permutation_in x (rsort_perm l)) in I. destruct (In_nth _ _ 0 I) as (i & Hi & E). exists i. split; [lia|]. now rewrite ent_mk by lia.
  - intros (i & Hi & <-). rewrite ent_mk by lia. apply (Permutation_in _ (Permutation_sym (rsort_perm l))). apply nth_In. lia.
Qed.
(** C82.  What [spectrum] returns is sorted, its sum is the trace of the result of [qr], and, if no subdiagonal entry of that result lies strictly between 0 and the
    threshold 1e-11, its values are exactly the (real) eigenvalues of that result. *)
Theorem C82_spectrum_partial : forall fuel M n v, wf M -> nr M = n -> nc M = n -> spectrum fuel M = Some (Some v) ->
  wf v /\ nr v = n /\ nc v = 1%nat /\ ascending n (ent v) /\ exists H Q, raw_qr fuel M false = Some (Some (H, Q)) /\ sum n (fun i => ent v i 0) = trace n (ent H) /\
    (well_split n (/ 10 ^ 11) (ent H) -> forall x, (exists i, (i < n)%nat /\ ent v i 0 = x) <-> eigenvalue n (ent H) x).
Proof.
  intros fuel M n v W RM CM E. unfold spectrum in E. rewrite RM, CM, Nat.eqb_refl in E. destruct (C85_qr_partial fuel M n W RM CM) as (_ & QR). destruct (raw_qr fuel M false) as [[(H & Q)|]|]; cbn [obind] in E; try discriminate.
  destruct (QR H Q eq_refl) as (WH & RH & CH & HH & SB & _). pose proof (wf_eq_mk H WH) as EM. rewrite RH, CH in EM. rewrite EM in E. destruct (blocks n (mk n n (ent H)) 0) as [l|] eqn:EB; [|discriminate]. cbn [obind] in E.
  destruct (blocks_spec n (ent H) n HH 0 l ltac:(lia) EB) as (LN & SM & EX). rewrite Nat.sub_0_r in *. rewrite sorted_column in E by exact LN. cbn [obind] in E. injection E as <-. pose proof (Permutation_length (rsort_perm l)) as PL.
  split; [apply wf_mk|]. split; [reflexivity|]. split; [reflexivity|]. split.
  - intros i Hi. rewrite !ent_mk by lia. apply up_nth; [apply rsort_up|lia].
  - exists H, Q. split; [reflexivity|]. split.
    + rewrite (rsum_ext n _ (fun i => nth i (rsort l) 0)) by (intros i Hi; now rewrite ent_mk by lia). replace (trace n (ent H)) with (lsum l) by exact SM. rewrite (lsum_perm _ _ (rsort_perm l)), lsum_nth. now rewrite <- PL, LN.
    + intros WS x. replace (/ 10 ^ 11) with (/ 100000000000) in WS by (f_equal; lra). replace (/ 10 ^ 15) with tolerance in SB by (unfold tolerance; f_equal; lra). rewrite <- (in_sorted l x n LN). exact (EX SB WS x).
Qed.
(** Inputs on which the iteration ends at once. *)
Lemma qr_at_once fuel n f : hessenberg n f -> (forall k, (k + 2 < n)%nat -> 0 <= f (k + 1)%nat k) -> small_blocks n tolerance (chopped tolerance f) -> exists h Q, raw_qr (S fuel) (mk n n f) false = Some (Some (mk n n h, Q)) /\ same n n h (chopped tolerance f).
Proof.
  intros HE P SB. unfold raw_qr. rewrite nr_mk, nc_mk, Nat.eqb_refl. destruct (Nat.ltb_spec n 2) as [L|L].
  - rewrite midentity_mk by lia. cbn [obind]. exists f. eexists. split; [reflexivity|]. intros i j Hi Hj. unfold chopped. now replace (i =? j + 1)%nat with false by lia.
  - rewrite hess_fixed by assumption. cbn [obind]. rewrite midentity_mk by lia. cbn [obind]. cbn [qr_loop]. destruct (qr_body_mk n f (mk 1 1 id_entry) L HE) as [(_ & B)|(p & e & g & q & _ & (He & _ & L1 & L2 & _) & _)].
    + rewrite B. cbn [obind fst snd]. rewrite nr_mk, Nat.eqb_refl. exists (chopped tolerance f). eexists. split; [reflexivity|]. now intros i j Hi Hj.
    + exfalso. specialize (SB (e - 3)%nat ltac:(lia)). replace (e - 3 + 1)%nat with (e - 2)%nat in SB by lia. replace (e - 3 + 2)%nat with (e - 1)%nat in SB by lia. lra.
Qed.
Lemma upper_chop n f : upper_triangular n f -> same n n (chopped tolerance f) f.
Proof. intros U i j Hi Hj. unfold chopped. destruct (Nat.eqb_spec i (j + 1)) as [E|]; [|reflexivity]. destruct (Rlt_dec _ _); [|reflexivity]. symmetry. apply U. lia. Qed.
Lemma blocks_upper n h fuel : upper_triangular n h -> forall i, (n <= i + fuel)%nat -> blocks fuel (mk n n h) i = Some (map (fun k => h k k) (seq i (n - i))).
Proof.
  intros U. induction fuel as [|fuel IH]; intros i Hi; cbn [blocks]; rewrite nr_mk; destruct (Nat.ltb_spec i n) as [L|L]; try lia; try (replace (n - i)%nat with 0%nat by lia; reflexivity).
  replace (if (i =? n - 1)%nat then Some true else do x <- mget (mk n n h) (i + 1) i; Some (rltb (Rabs x) (/ 100000000000))) with (Some true).
  - cbn [obind]. rewrite mget_in by lia. cbn [obind]. rewrite IH by lia. cbn [obind]. replace (n - i)%nat with (S (n - (i + 1))) by lia. cbn [seq map]. now replace (S i) with (i + 1)%nat by lia.
  - destruct (Nat.eqb_spec i (n - 1)); [reflexivity|]. rewrite mget_in by lia. cbn [obind]. rewrite U by lia. rewrite Rabs_R0. destruct (rltb_spec 0 (/ 100000000000)) as [|N]; [reflexivity|]. exfalso. apply N. lra.
Qed.
(** On an upper triangular matrix the values are the diagonal entries, sorted: exactly its eigenvalues. *)
Theorem C82_triangular : forall fuel M n, wf M -> nr M = n -> nc M = n -> upper_triangular n (ent M) ->
  exists v, spectrum (S fuel) M = Some (Some v) /\ wf v /\ nr v = n /\ nc v = 1%nat /\ ascending n (ent v) /\ Permutation (map (fun i => ent v i 0) (seq 0 n)) (map (fun i => ent M i i) (seq 0 n)) /\
    forall x, (exists i, (i < n)%nat /\ ent v i 0 = x) <-> eigenvalue n (ent M) x.
Proof.
  intros fuel M n W RM CM U. pose proof (wf_eq_mk M W) as EM. rewrite RM, CM in EM. set (f := ent M) in *. clearbody f. assert (hessenberg n f) as HE by (intros i j Hi; apply U; lia). pose proof (upper_chop n f U) as EC.
  destruct (qr_at_once fuel n f HE) as (h & Q & E & Eh); [intros k Hk; rewrite U by lia; lra|intros i Hi; left; rewrite EC by lia; rewrite U by lia; rewrite Rabs_R0; pose proof tol_pos; lra|].
  assert (mk n n h = mk n n f) as EF by (apply mk_ext; intros i j Hi Hj; rewrite Eh by assumption; now apply EC). rewrite EF in E. rewrite <- EM in E.
  set (l := map (fun k => f k k) (seq 0 n)). assert (length l = n) as LN by (unfold l; rewrite map_length; apply seq_length). pose proof (Permutation_length (rsort_perm l)) as PL.
  exists (mk n 1 (fun i _ => nth i (rsort l) 0)). assert (spectrum (S fuel) M = Some (Some (mk n 1 (fun i _ => nth i (rsort l) 0)))) as ES.
  { unfold spectrum. rewrite RM, CM, Nat.eqb_refl, E. cbn [obind]. rewrite EM. rewrite (blocks_upper n f n U 0) by lia. cbn [obind]. rewrite Nat.sub_0_r. fold l. rewrite sorted_column by exact LN. reflexivity. }
  split; [exact ES|]. destruct (C82_spectrum_partial (S fuel) M n _ W RM CM ES) as (WV & RV & CV & AS & H & Q' & E' & _ & EX). split; [exact WV|]. split; [exact RV|]. split; [exact CV|]. split; [exact AS|]. split.
  - fold l. replace (map (fun i => ent (mk n 1 (fun i0 _ => nth i0 (rsort l) 0)) i 0) (seq 0 n)) with (rsort l); [symmetry; apply rsort_perm|]. symmetry.
    rewrite (map_ext_in _ (fun i => nth i (rsort l) 0)) by (intros i Hi; apply in_seq in Hi; now rewrite ent_mk by lia). rewrite <- LN, PL. clear. generalize (rsort l). intros r. induction r as [|x r IH]; [reflexivity|]. cbn [length seq map nth]. f_equal. rewrite <- seq_shift, map_map. exact IH.
  - rewrite E in E'. injection E' as <- <-. intros x. rewrite EX.
    + rewrite EM. split; apply eig_ext; intros i j Hi Hj; rewrite ent_mk by assumption; reflexivity.
    + intros i Hi. left. rewrite EM, ent_mk by lia. apply U. lia.
Qed.
(** Order two.  When the entry below the diagonal is zero or large enough not to be ignored, [spectrum] gives the eigenvalues if they are real and different, and panics if
    they are complex or, with that entry nonzero, if the matrix has one eigenvalue. *)
Theorem C82_two_by_two : forall fuel M, wf M -> nr M = 2%nat -> nc M = 2%nat -> / 10 ^ 11 <= Rabs (ent M 1 0) -> / 10 ^ 15 * (Rabs (ent M 0 0) + Rabs (ent M 1 1)) <= Rabs (ent M 1 0) ->
  let disc := (ent M 0 0 - ent M 1 1) * (ent M 0 0 - ent M 1 1) + 4 * (ent M 0 1 * ent M 1 0) in
  (0 < disc -> exists v, spectrum (S fuel) M = Some (Some v) /\ ent v 0 0 < ent v 1 0 /\ forall x, (x = ent v 0 0 \/ x = ent v 1 0) <-> eigenvalue 2 (ent M) x) /\
  (disc <= 0 -> spectrum (S fuel) M = None).
Proof.
  intros fuel M W RM CM H1 H2. pose proof (wf_eq_mk M W) as EM. rewrite RM, CM in EM. set (f := ent M) in *. clearbody f. subst M. intros disc. replace (/ 10 ^ 11) with (/ 100000000000) in H1 by (f_equal; lra). replace (/ 10 ^ 15) with tolerance in H2 by (unfold tolerance; f_equal; lra).
  assert (same 2 2 (chopped tolerance f) f) as EC by (intros i j Hi Hj; unfold chopped; destruct (Nat.eqb_spec i (j + 1)); [|reflexivity]; replace i with 1%nat by lia; replace j with 0%nat by lia; destruct (Rlt_dec _ _); [lra|reflexivity]).
  destruct (qr_at_once fuel 2 f) as (h & Q & E & Eh); [intros i j Hi; lia|intros; lia|intros i Hi; lia|].
  assert (mk 2 2 h = mk 2 2 f) as EF by (apply mk_ext; intros i j Hi Hj; rewrite Eh by assumption; now apply EC). rewrite EF in E.
  assert (blocks 2 (mk 2 2 f) 0 = match real_spectrum_of_two_by_two (mk 2 2 f) with Some (Some (x, y)) => Some [x; y] | _ => None end) as EB.
  { cbn [blocks]. rewrite !nr_mk. change (0 <? 2)%nat with true. cbn iota. change (0 =? 2 - 1)%nat with false. cbn iota. rewrite mget_in by lia. cbn [obind Nat.add]. destruct (rltb_spec (Rabs (f 1%nat 0%nat)) (/ 100000000000)); [lra|].
    rewrite msub_view_mk by lia. cbn [obind Nat.sub Nat.add]. change (2 <? 2)%nat with false. cbn iota. change (mk 2 2 (fun i j : nat => f i j)) with (mk 2 2 f). destruct (real_spectrum_of_two_by_two (mk 2 2 f)) as [[(x & y)|]|]; reflexivity. }
  assert (disc = 4 * ((f 0%nat 0%nat + f 1%nat 1%nat) / 2 * ((f 0%nat 0%nat + f 1%nat 1%nat) / 2) - (f 0%nat 0%nat * f 1%nat 1%nat - f 0%nat 1%nat * f 1%nat 0%nat))) as ED by (unfold disc; field). split; intros D.
  - pose proof (two_mk f) as TM. cbn zeta in TM. destruct (rltb_spec 0 ((f 0%nat 0%nat + f 1%nat 1%nat) / 2 * ((f 0%nat 0%nat + f 1%nat 1%nat) / 2) - (f 0%nat 0%nat * f 1%nat 1%nat - f 0%nat 1%nat * f 1%nat 0%nat))) as [L|L]; [|lra].
    destruct (two_values f _ _ TM) as (_ & XY & EV). set (x := (f 0%nat 0%nat + f 1%nat 1%nat) / 2 - sqrt _) in *. set (y := (f 0%nat 0%nat + f 1%nat 1%nat) / 2 + sqrt _) in *. rewrite TM in EB. exists (mk 2 1 (fun i _ => nth i (rsort [x; y]) 0)). split.
    + unfold spectrum. rewrite nr_mk, nc_mk, Nat.eqb_refl, E. cbn [obind]. rewrite EB. cbn [obind]. rewrite sorted_column by reflexivity. reflexivity.
    + cbn [rsort rinsert]. destruct (rleb_spec x y); [|lra]. rewrite !ent_mk by lia. cbn [nth]. split; [exact XY|exact EV].
  - unfold spectrum. rewrite nr_mk, nc_mk, Nat.eqb_refl, E. cbn [obind]. rewrite EB, two_mk. cbn zeta. destruct (rltb_spec 0 ((f 0%nat 0%nat + f 1%nat 1%nat) / 2 * ((f 0%nat 0%nat + f 1%nat 1%nat) / 2) - (f 0%nat 0%nat * f 1%nat 1%nat - f 0%nat 1%nat * f 1%nat 0%nat))) as [L|L]; [lra|]. reflexivity.
Qed.
(** The claim: [spectrum] of a symmetric matrix ends and gives its eigenvalues. *)
Definition C82_claim : Prop := forall M n, wf M -> nr M = n -> nc M = n -> symmetric n (ent M) -> exists fuel v, spectrum fuel M = Some (Some v) /\ forall x, (exists i, (i < n)%nat /\ ent v i 0 = x) <-> eigenvalue n (ent M) x.
(** It does not end on [[0,1,0],[1,0,1],[0,1,0]], whose eigenvalues are 0 and the roots of 2. *)
Theorem C82_refuted : ~ C82_claim.
Proof.
  intros H. destruct (H (mk 3 3 (tri3 0 1 1 1 1)) 3%nat (wf_mk _ _ _) eq_refl eq_refl) as (fuel & v & E & _).
  - intros i j Hi Hj. rewrite !ent_mk by assumption. destruct i as [|[|[|i]]]; try lia; destruct j as [|[|[|j]]]; try lia; reflexivity.
  - unfold spectrum in E. rewrite nr_mk, nc_mk, Nat.eqb_refl in E. rewrite C85_never_ends in E; [discriminate|lra|rewrite Rabs_R0; lra].
Qed.
Theorem C82_never_ends : forall fuel a b, / 10 ^ 15 < b -> / 10 ^ 15 * (2 * Rabs a) <= b -> spectrum fuel (mk 3 3 (tri3 a b b b b)) = Some None.
Proof. intros fuel a b H1 H2. unfold spectrum. rewrite nr_mk, nc_mk, Nat.eqb_refl. now rewrite C85_never_ends. Qed.
(** When it ends the values may be wrong: small entries are taken for zero, whatever the scale of the matrix.  [[0,e],[e,0]] with e = 1e-12 has the eigenvalues e and -e. *)
Definition C82_values_claim : Prop := forall fuel M n v, wf M -> nr M = n -> nc M = n -> symmetric n (ent M) -> spectrum fuel M = Some (Some v) -> forall i, (i < n)%nat -> eigenvalue n (ent M) (ent v i 0).
Theorem C82_values_refuted : ~ C82_values_claim.
Proof.
  intros H. set (e := / 1000000000000). set (f := fun i j : nat => if (i =? j)%nat then 0 else e). assert (0 < e) as EP by (unfold e; lra).
  destruct (qr_at_once 0 2 f) as (h & Q & E & Eh); [intros i j Hi; lia|intros; lia|intros i Hi; lia|].
  assert (same 2 2 (chopped tolerance f) f) as EC by (intros i j Hi Hj; unfold chopped; destruct (Nat.eqb_spec i (j + 1)); [|reflexivity]; replace i with 1%nat by lia; replace j with 0%nat by lia; destruct (Rlt_dec _ _) as [L|]; [|reflexivity]; cbn in L; rewrite Rabs_R0, Rabs_right in L by lra; lra).
  assert (mk 2 2 h = mk 2 2 f) as EF by (apply mk_ext; intros i j Hi Hj; rewrite Eh by assumption; now apply EC). rewrite EF in E.
  assert (blocks 2 (mk 2 2 f) 0 = Some [0; 0]) as EB.
  { cbn [blocks]. rewrite !nr_mk. change (0 <? 2)%nat with true. cbn iota. change (0 =? 2 - 1)%nat with false. cbn iota. rewrite mget_in by lia. cbn [obind Nat.add]. change (f 1%nat 0%nat) with e. rewrite Rabs_right by lra. destruct (rltb_spec e (/ 100000000000)) as [_|N]; [|exfalso; apply N; unfold e; apply Rinv_lt_contravar; lra].
    rewrite mget_in by lia. cbn [obind]. change (1 <? 2)%nat with true. cbn iota. change (1 =? 2 - 1)%nat with true. cbn iota. cbn [obind]. rewrite mget_in by lia. cbn [obind]. reflexivity. }
  assert (spectrum 1 (mk 2 2 f) = Some (Some (mk 2 1 (fun i _ => nth i (rsort [0; 0]) 0)))) as ES by (unfold spectrum; rewrite nr_mk, nc_mk, Nat.eqb_refl, E; cbn [obind]; rewrite EB; cbn [obind]; rewrite sorted_column by reflexivity; reflexivity).
  specialize (H 1%nat (mk 2 2 f) 2%nat (mk 2 1 (fun i _ => nth i (rsort [0; 0]) 0)) (wf_mk _ _ _) eq_refl eq_refl). assert (symmetric 2 (ent (mk 2 2 f))) as SY by (intros i j Hi Hj; rewrite !ent_mk by assumption; unfold f; destruct (Nat.eqb_spec i j) as [->|N]; [now rewrite Nat.eqb_refl|]; destruct (Nat.eqb_spec j i); [congruence|reflexivity]).
  specialize (H SY ES 0%nat ltac:(lia)). rewrite ent_mk in H by lia. cbn [rsort rinsert] in H. destruct (rleb 0 0); cbn [nth] in H; apply eig_two in H; rewrite !ent_mk in H by lia; cbn in H; nra.
Qed.
(** A double eigenvalue: [[2,1],[-1,0]] has the eigenvalue 1, but [spectrum] panics. *)
Theorem C82_double_panics : exists M, wf M /\ nr M = 2%nat /\ nc M = 2%nat /\ eigenvalue 2 (ent M) 1 /\ forall fuel, spectrum (S fuel) M = None.
Proof.
  set (f := fun i j : nat => match i, j with 0%nat, 0%nat => 2 | 0%nat, 1%nat => 1 | 1%nat, 0%nat => -1 | _, _ => 0 end). exists (mk 2 2 f). split; [apply wf_mk|]. split; [reflexivity|]. split; [reflexivity|]. split; [apply eig_two; rewrite !ent_mk by lia; cbn; ring|].
  assert (Rabs (-1) = 1) as A1 by (rewrite Rabs_left by lra; lra). assert (Rabs 2 = 2) as A2 by (apply Rabs_right; lra).
  intros fuel. destruct (C82_two_by_two fuel (mk 2 2 f) (wf_mk _ _ _) eq_refl eq_refl) as (_ & P); [rewrite ent_mk by lia; cbn; rewrite A1; lra|rewrite !ent_mk by lia; cbn; rewrite A1, A2, Rabs_R0; lra|]. apply P. rewrite !ent_mk by lia. cbn. lra.
Qed.
Theorem C82_panics : forall fuel M, nr M <> nc M -> spectrum fuel M = None.
Proof. intros fuel M H. unfold spectrum. now destruct (Nat.eqb_spec (nr M) (nc M)). Qed.
(** After one iteration: [[2,0,0],[1,1,0],[0,1,2]] has the values 1, 2, 2. *)
Example C82_nonvacuous : exists v, spectrum 2 (mk 3 3 (jordan3 2 1)) = Some (Some v) /\ ent v 0 0 = 1 /\ ent v 1 0 = 2 /\ ent v 2 0 = 2.
Proof.
  unfold spectrum. rewrite nr_mk, nc_mk, Nat.eqb_refl. rewrite jordan3_run by (unfold tolerance; rewrite !Rabs_right by lra; lra). cbn [obind].
  rewrite (blocks_upper 3 (fun i j => jordan3 2 1 (2 - i)%nat (2 - j)%nat) 3); [|intros i j Hi; destruct i as [|[|[|i]]]; try lia; destruct j as [|[|[|j]]]; try lia; reflexivity|lia]. cbn [obind]. rewrite sorted_column by reflexivity. cbn [obind]. eexists. split; [reflexivity|].
  rewrite !ent_mk by lia. cbn. destruct (rleb_spec 1 2); [|lra]. cbn. destruct (rleb_spec 2 1); [lra|]. destruct (rleb_spec 2 2); [|lra]. cbn. auto.
Qed.
Print Assumptions C82_spectrum_partial.
Print Assumptions C82_triangular.
Print Assumptions C82_two_by_two.
Print Assumptions C82_refuted.
Print Assumptions C82_never_ends.
Print Assumptions C82_values_refuted.
Print Assumptions C82_double_panics.
Print Assumptions C82_panics.
