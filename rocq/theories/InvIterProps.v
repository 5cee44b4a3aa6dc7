(** C93: eigenvectors by inverse iteration. *)
From Coq Require Import List Arith Bool Lia ZifyBool Reals Lra.
From Verif Require Import PidModel MatModel MatSpec MatProofs MatProofs2 SnfModel RankModel LuModel LuSpec LuProofs2 LuProofs3 NumModel NumSpec NumProofs HouseProofs HessProofs FrancisModel FrancisSpec FrancisProofs EigProofs QrProofs SpectrumProps TriModel TriSpec TriProofs TriProps WilkModel WilkSpec WilkProofs SymQrSpec SymQrProofs SymQrProofs2 SymQrProofs3 SymQrProofs4 SymQrProofs5 SymQrProofs6 SymQrProps RandModel RandProofs InvIterModel InvIterSpec InvIterProofs.
Import ListNotations.
Open Scope R_scope.

Lemma mbuild_shape {T} {O : Ops T} n m (f : nat -> nat -> option T) M : mbuild n m f = Some M -> M = mk n m (ent M).
Proof.
  intros H. destruct (mbuild n m f) as [M'|] eqn:E; [|discriminate]. injection H as <-. revert E.
  assert (forall i j, (i < n)%nat -> (j < m)%nat -> exists x, mbuild n m f = Some M' -> f i j = Some x) as F.
  { intros i j Hi Hj. destruct (f i j) as [x|] eqn:E; [exists x; reflexivity|]. exists t0. now rewrite (mbuild_none n m f i j Hi Hj E). }
  intros E. rewrite (mbuild_some n m f (fun i j => match f i j with Some x => x | None => t0 end)) in E.
  - injection E as <-. apply mk_ext. intros i j Hi Hj. now rewrite ent_mk.
  - intros i j Hi Hj. destruct (F i j Hi Hj) as (x & X). now rewrite (X E).
Qed.
Lemma spectrum_shape fuel M v : spectrum fuel M = Some (Some v) -> v = mk (nr M) 1 (ent v) /\ nr M = nc M.
Proof.
  unfold spectrum. destruct (Nat.eqb_spec (nr M) (nc M)) as [E|]; [|discriminate]. destruct (raw_qr fuel M false) as [[[H Q]|]|]; [|discriminate|discriminate]. cbn [obind].
  destruct (blocks (nr M) H 0) as [l|]; [|discriminate]. cbn [obind]. destruct (mbuild (nr M) 1 (fun i _ => nth_error (rsort l) i)) as [w|] eqn:B; [|discriminate]. cbn [obind]. intros [= <-]. split; [now apply mbuild_shape in B|exact E].
Qed.
Lemma spectrum_symmetric_shape fuel M v : spectrum_symmetric fuel M = Some (Some v) -> v = mk (nr M) 1 (ent v) /\ nr M = nc M.
Proof.
  unfold spectrum_symmetric. destruct (Nat.eqb_spec (nr M) (nc M)) as [E|]; [|discriminate]. destruct (symmetric_qr fuel M false) as [[[H Q]|]|]; [|discriminate|discriminate]. cbn [obind].
  destruct (sym_blocks (nr M) H 0) as [l|]; [|discriminate]. cbn [obind]. destruct (mbuild (nr M) 1 (fun i _ => nth_error (rsort l) i)) as [w|] eqn:B; [|discriminate]. cbn [obind]. intros [= <-]. split; [now apply mbuild_shape in B|exact E].
Qed.
(** The loop of the three functions that return a matrix. *)
Definition finish (n : nat) (M v : mat R) (k : nat) : option (option (mat R * mat R)) :=
  do E <- foldM (fun E i => inverse_iteration n M v E i i) (seq 0 k) (mk n k (fun _ _ => 1 / sqrt (INR n))); Some (Some (v, E)).
Lemma invariant_space_eq fuel M : spectrum_with_invariant_space fuel M = if (nr M =? nc M)%nat then do s <- spectrum fuel M; match s with None => Some None | Some v => finish (nr M) M v (nr M) end else None.
Proof. unfold spectrum_with_invariant_space, finish. rewrite start_mk. unfold rng. rewrite Nat.sub_0_r. reflexivity. Qed.
Lemma invariant_space_symmetric_eq fuel M : spectrum_with_invariant_space_symmetric fuel M = if (nr M =? nc M)%nat then do s <- spectrum_symmetric fuel M; match s with None => Some None | Some v => finish (nr M) M v (nr M) end else None.
Proof. unfold spectrum_with_invariant_space_symmetric, finish. rewrite start_mk. unfold rng. rewrite Nat.sub_0_r. reflexivity. Qed.
Lemma n_smallest_eq fuel M k : spectrum_with_n_smallest fuel M k = if (nr M =? nc M)%nat then do s <- spectrum_symmetric fuel M; match s with None => Some None | Some v => finish (nr M) M v k end else None.
Proof. unfold spectrum_with_n_smallest, finish. rewrite start_mk. unfold rng. rewrite Nat.sub_0_r. reflexivity. Qed.
Lemma finish_ok n M v k : wf M -> nr M = n -> nc M = n -> (0 < n)%nat -> (k <= n)%nat -> v = mk n 1 (ent v) ->
  (forall i, (i < k)%nat -> regular n (ent M) (ent v i 0)) ->
  exists E, finish n M v k = Some (Some (v, E)) /\ wf E /\ nr E = n /\ nc E = k /\ forall i, (i < k)%nat -> twice_solved n (ent M) (ent v i 0) (column (ent E) i).
Proof.
  intros W RM CM Hn Hk SV H. unfold finish. pose proof (wf_eq_mk M W) as EM. rewrite RM, CM in EM. replace (fun E i => inverse_iteration n M v E i i) with (fun E i => inverse_iteration n (mk n n (ent M)) v E i i) by (now rewrite <- EM).
  assert (forall i, (i < k)%nat -> mget v i 0 = Some (ent v i 0)) as V by (intros i Hi; rewrite SV, mget_in, ent_mk by lia; reflexivity).
  destruct (loop_ok n k (ent M) v k Hn (le_n k)) as (e & -> & _ & T); [intros i Hi; exists (ent v i 0); split; [now apply V|now apply H]|]. cbn [obind].
  exists (mk n k e). split; [reflexivity|]. split; [apply wf_mk|]. split; [reflexivity|]. split; [reflexivity|]. intros i Hi. destruct (T i _ Hi (V i Hi)) as (N & rho & P & Q).
  split; [rewrite <- N; apply norm2_ext; intros r Hr; unfold column; now rewrite ent_mk|]. exists rho. split; [exact P|]. intros r Hr. rewrite <- (Q r Hr).
  apply apply_ext; [reflexivity|]. intros j Hj. apply apply_ext; [reflexivity|]. intros j' Hj'. unfold column. now rewrite ent_mk.
Qed.
Lemma finish_none n M v k i : wf M -> nr M = n -> nc M = n -> (0 < n)%nat -> v = mk n 1 (ent v) -> (i < k)%nat -> (n <= i)%nat \/ ~ regular n (ent M) (ent v i 0) -> finish n M v k = None.
Proof.
  intros W RM CM Hn SV Hi H. unfold finish. pose proof (wf_eq_mk M W) as EM. rewrite RM, CM in EM. replace (fun E i => inverse_iteration n M v E i i) with (fun E i => inverse_iteration n (mk n n (ent M)) v E i i) by (now rewrite <- EM). rewrite (loop_none n k (ent M) v k i); [reflexivity|exact Hn|lia|exact Hi|].
  intros l V. destruct H as [H|H].
  - rewrite SV in V. unfold mget in V. rewrite nr_mk in V. replace (i <? n)%nat with false in V by lia. discriminate.
  - destruct (Nat.lt_ge_cases i n) as [L|L].
    + rewrite SV, mget_in in V by lia. injection V as <-. exact H.
    + rewrite SV in V. unfold mget in V. rewrite nr_mk in V. replace (i <? n)%nat with false in V by lia. discriminate.
Qed.
Lemma finish_inv n M v k w E : wf M -> nr M = n -> nc M = n -> (0 < n)%nat -> v = mk n 1 (ent v) -> finish n M v k = Some (Some (w, E)) ->
  w = v /\ (k <= n)%nat /\ wf E /\ nr E = n /\ nc E = k /\ forall i, (i < k)%nat -> regular n (ent M) (ent v i 0) /\ twice_solved n (ent M) (ent v i 0) (column (ent E) i).
Proof.
  intros W RM CM Hn SV F. assert (forall i, (i < k)%nat -> (i < n)%nat /\ regular n (ent M) (ent v i 0)) as G.
  { intros i Hi. split.
    - destruct (Nat.lt_ge_cases i n) as [L|L]; [exact L|]. rewrite (finish_none n M v k i) in F by (assumption || now left). discriminate.
    - destruct (regular_dec n (ent M) (ent v i 0)) as [R|(j & Hj & Z & P)]; [exact R|]. rewrite (finish_none n M v k i) in F; try assumption; [discriminate|]. right. intros R.
      exact (proj1 (regular_piv n _ _) R j Hj Z). }
  assert (k <= n)%nat as Hk by (destruct k; [lia|]; destruct (G k ltac:(lia)); lia).
  destruct (finish_ok n M v k W RM CM Hn Hk SV) as (E' & F' & WE & RE & CE & T); [intros i Hi; now apply G|]. rewrite F in F'. injection F' as <- <-.
  split; [reflexivity|]. split; [exact Hk|]. split; [exact WE|]. split; [exact RE|]. split; [exact CE|]. intros i Hi. split; [now apply G|now apply T].
Qed.

(** What a result looks like: the values are those of [spectrum]; none of those used is an eigenvalue; the vectors have length one and are mapped to a positive multiple of the vector of ones by
    [(A - lambda)^2]. *)
Definition eigen_columns (n k : nat) (A v E : nat -> nat -> R) : Prop := forall i, (i < k)%nat -> ~ eigenvalue n A (v i 0%nat) /\ twice_solved n A (v i 0%nat) (column E i).
Theorem C93_invariant_space_partial : forall fuel M n v E, wf M -> nr M = n -> nc M = n -> (0 < n)%nat -> spectrum_with_invariant_space fuel M = Some (Some (v, E)) ->
  spectrum fuel M = Some (Some v) /\ wf E /\ nr E = n /\ nc E = n /\ eigen_columns n n (ent M) (ent v) (ent E).
Proof.
  intros fuel M n v E W RM CM Hn. rewrite invariant_space_eq, RM, CM, Nat.eqb_refl. destruct (spectrum fuel M) as [[u|]|] eqn:S0; [|discriminate|discriminate]. cbn [obind]. intros F.
  destruct (spectrum_shape _ _ _ S0) as [SV _]. rewrite RM in SV. destruct (finish_inv n M u n v E W RM CM Hn SV F) as (-> & _ & WE & RE & CE & T).
  repeat (split; [reflexivity || assumption|]). intros i Hi. destruct (T i Hi) as [R T']. split; [now apply regular_eigen|exact T'].
Qed.
Theorem C93_invariant_space_symmetric_partial : forall fuel M n v E, wf M -> nr M = n -> nc M = n -> spectrum_with_invariant_space_symmetric fuel M = Some (Some (v, E)) ->
  spectrum_symmetric fuel M = Some (Some v) /\ wf E /\ nr E = n /\ nc E = n /\ eigen_columns n n (ent M) (ent v) (ent E).
Proof.
  intros fuel M n v E W RM CM. rewrite invariant_space_symmetric_eq, RM, CM, Nat.eqb_refl. destruct (Nat.lt_ge_cases n 2) as [L|Hn]; [rewrite C90_panics by (right; lia); discriminate|].
  destruct (spectrum_symmetric fuel M) as [[u|]|] eqn:S0; [|discriminate|discriminate]. cbn [obind]. intros F.
  destruct (spectrum_symmetric_shape _ _ _ S0) as [SV _]. rewrite RM in SV. destruct (finish_inv n M u n v E W RM CM ltac:(lia) SV F) as (-> & _ & WE & RE & CE & T).
  repeat (split; [reflexivity || assumption|]). intros i Hi. destruct (T i Hi) as [R T']. split; [apply regular_eigen; [lia|exact R]|exact T'].
Qed.
Theorem C93_n_smallest_partial : forall fuel M n k v E, wf M -> nr M = n -> nc M = n -> spectrum_with_n_smallest fuel M k = Some (Some (v, E)) ->
  spectrum_symmetric fuel M = Some (Some v) /\ (k <= n)%nat /\ wf E /\ nr E = n /\ nc E = k /\ eigen_columns n k (ent M) (ent v) (ent E).
Proof.
  intros fuel M n k v E W RM CM. rewrite n_smallest_eq, RM, CM, Nat.eqb_refl. destruct (Nat.lt_ge_cases n 2) as [L|Hn]; [rewrite C90_panics by (right; lia); discriminate|].
  destruct (spectrum_symmetric fuel M) as [[u|]|] eqn:S0; [|discriminate|discriminate]. cbn [obind]. intros F.
  destruct (spectrum_symmetric_shape _ _ _ S0) as [SV _]. rewrite RM in SV. destruct (finish_inv n M u k v E W RM CM ltac:(lia) SV F) as (-> & Hk & WE & RE & CE & T).
  repeat (split; [reflexivity || assumption|]). intros i Hi. destruct (T i Hi) as [R T']. split; [apply regular_eigen; [lia|exact R]|exact T'].
Qed.
Lemma n_th_eq fuel M n k v : wf M -> nr M = n -> nc M = n -> (0 < n)%nat -> spectrum_symmetric fuel M = Some (Some v) ->
  ((n <= k)%nat \/ ~ regular n (ent M) (ent v k 0) -> spectrum_with_n_th fuel M k = None) /\
  ((k < n)%nat -> regular n (ent M) (ent v k 0) -> exists E, spectrum_with_n_th fuel M k = Some (Some (ent v k 0%nat, E)) /\ wf E /\ nr E = n /\ nc E = 1%nat /\ twice_solved n (ent M) (ent v k 0%nat) (column (ent E) 0)).
Proof.
  intros W RM CM Hn S0. unfold spectrum_with_n_th. rewrite RM, CM, Nat.eqb_refl, start_mk. cbn [obind]. rewrite S0. cbn [obind]. destruct (spectrum_symmetric_shape _ _ _ S0) as [SV _]. rewrite RM in SV.
  pose proof (wf_eq_mk M W) as EM. rewrite RM, CM in EM.
  assert ((n <= k)%nat -> mget v k 0 = None) as V0 by (intros L; rewrite SV; unfold mget; rewrite nr_mk; replace (k <? n)%nat with false by lia; reflexivity).
  assert ((k < n)%nat -> mget v k 0 = Some (ent v k 0%nat)) as V1 by (intros L; rewrite SV, mget_in, ent_mk by lia; reflexivity). split.
  - intros H. destruct (Nat.lt_ge_cases k n) as [L|L]; [|rewrite V0 by exact L; reflexivity]. destruct H as [H|H]; [lia|]. rewrite V1 by exact L. cbn [obind]. replace (inverse_iteration n M v) with (inverse_iteration n (mk n n (ent M)) v) by (now rewrite <- EM).
    rewrite (iteration_none n 1 (ent M) v _ k 0 (ent v k 0%nat) Hn ltac:(lia) (V1 L) H). reflexivity.
  - intros L R. rewrite V1 by exact L. cbn [obind]. replace (inverse_iteration n M v) with (inverse_iteration n (mk n n (ent M)) v) by (now rewrite <- EM). destruct (iteration_ok n 1 (ent M) v (fun _ _ => 1 / sqrt (INR n)) k 0 (ent v k 0%nat) Hn ltac:(lia) (V1 L) ltac:(reflexivity) R) as (x & -> & N & rho & P & Q). cbn [obind].
    eexists. split; [reflexivity|]. split; [apply wf_mk|]. split; [reflexivity|]. split; [reflexivity|].
    assert (forall r, (r < n)%nat -> column (ent (mk n 1 (put (fun _ _ : nat => 1 / sqrt (INR n)) 0 x))) 0 r = x r) as C by (intros r Hr; unfold column; rewrite ent_mk by lia; reflexivity).
    split; [rewrite <- N; now apply norm2_ext|]. exists rho. split; [exact P|]. intros r Hr. rewrite <- (Q r Hr). apply apply_ext; [reflexivity|]. intros j Hj. apply apply_ext; [reflexivity|]. intros j' Hj'. now apply C.
Qed.
Theorem C93_n_th_partial : forall fuel M n k l E, wf M -> nr M = n -> nc M = n -> spectrum_with_n_th fuel M k = Some (Some (l, E)) ->
  exists v, spectrum_symmetric fuel M = Some (Some v) /\ (k < n)%nat /\ l = ent v k 0%nat /\ wf E /\ nr E = n /\ nc E = 1%nat /\ ~ eigenvalue n (ent M) l /\ twice_solved n (ent M) l (column (ent E) 0).
Proof.
  intros fuel M n k l E W RM CM F. destruct (Nat.lt_ge_cases n 2) as [L|Hn].
  { unfold spectrum_with_n_th in F. rewrite RM, CM, Nat.eqb_refl, start_mk in F. cbn [obind] in F. rewrite C90_panics in F by (right; lia). discriminate. }
  destruct (spectrum_symmetric fuel M) as [[v|]|] eqn:S0.
  - destruct (n_th_eq fuel M n k v W RM CM ltac:(lia) S0) as [A B]. destruct (Nat.lt_ge_cases k n) as [L|L]; [|rewrite A in F by (now left); discriminate].
    destruct (regular_dec n (ent M) (ent v k 0)) as [R|(j & Hj & Z & P)].
    + destruct (B L R) as (E' & F' & WE & RE & CE & T). rewrite F in F'. injection F' as -> <-. exists v. repeat (split; [reflexivity || assumption|]). split; [apply regular_eigen; [lia|exact R]|exact T].
    + rewrite A in F; [discriminate|]. right. intros R. exact (proj1 (regular_piv n _ _) R j Hj Z).
  - unfold spectrum_with_n_th in F. rewrite RM, CM, Nat.eqb_refl, start_mk in F. cbn [obind] in F. rewrite S0 in F. discriminate.
  - unfold spectrum_with_n_th in F. rewrite RM, CM, Nat.eqb_refl, start_mk in F. cbn [obind] in F. rewrite S0 in F. discriminate.
Qed.
(** When there is a result: exactly when no leading minor of the matrices [A - lambda] is zero. *)
Theorem C93_defined : forall fuel M n, wf M -> nr M = n -> nc M = n -> (0 < n)%nat ->
  (forall v, spectrum fuel M = Some (Some v) -> ((exists E, spectrum_with_invariant_space fuel M = Some (Some (v, E))) <-> forall i, (i < n)%nat -> regular n (ent M) (ent v i 0)) /\
     ((exists i, (i < n)%nat /\ ~ regular n (ent M) (ent v i 0)) -> spectrum_with_invariant_space fuel M = None)) /\
  (forall v, spectrum_symmetric fuel M = Some (Some v) -> forall k, ((exists E, spectrum_with_n_smallest fuel M k = Some (Some (v, E))) <-> (k <= n)%nat /\ forall i, (i < k)%nat -> regular n (ent M) (ent v i 0)) /\
     ((n < k)%nat \/ (exists i, (i < k)%nat /\ ~ regular n (ent M) (ent v i 0)) -> spectrum_with_n_smallest fuel M k = None)) /\
  (forall v, spectrum_symmetric fuel M = Some (Some v) -> forall k, ((exists E, spectrum_with_n_th fuel M k = Some (Some (ent v k 0%nat, E))) <-> (k < n)%nat /\ regular n (ent M) (ent v k 0)) /\
     ((n <= k)%nat \/ ~ regular n (ent M) (ent v k 0) -> spectrum_with_n_th fuel M k = None)) /\
  spectrum_with_invariant_space_symmetric fuel M = spectrum_with_n_smallest fuel M n.
Proof.
  intros fuel M n W RM CM Hn. split; [|split; [|split]].
  - intros v S0. destruct (spectrum_shape _ _ _ S0) as [SV _]. rewrite RM in SV. rewrite invariant_space_eq, RM, CM, Nat.eqb_refl, S0. cbn [obind]. split; [split|].
    + intros (E & F) i Hi. destruct (finish_inv n M v n v E W RM CM Hn SV F) as (_ & _ & _ & _ & _ & T). now apply T.
    + intros G. destruct (finish_ok n M v n W RM CM Hn (le_n n) SV G) as (E & F & _). now exists E.
    + intros (i & Hi & G). apply (finish_none n M v n i); try assumption. now right.
  - intros v S0 k. destruct (spectrum_symmetric_shape _ _ _ S0) as [SV _]. rewrite RM in SV. rewrite n_smallest_eq, RM, CM, Nat.eqb_refl, S0. cbn [obind]. split; [split|].
    + intros (E & F). destruct (finish_inv n M v k v E W RM CM Hn SV F) as (_ & Hk & _ & _ & _ & T). split; [exact Hk|]. intros i Hi. now apply T.
    + intros (Hk & G). destruct (finish_ok n M v k W RM CM Hn Hk SV G) as (E & F & _). now exists E.
    + intros [L|(i & Hi & G)]; [apply (finish_none n M v k n); try assumption; left; lia|apply (finish_none n M v k i); try assumption; now right].
  - intros v S0 k. destruct (n_th_eq fuel M n k v W RM CM Hn S0) as [A B]. split; [split|exact A].
    + intros (E & F). destruct (Nat.lt_ge_cases k n) as [L|L]; [|rewrite A in F by (now left); discriminate]. split; [exact L|].
      destruct (regular_dec n (ent M) (ent v k 0)) as [R|(j & Hj & Z & P)]; [exact R|]. rewrite A in F; [discriminate|]. right. intros R. exact (proj1 (regular_piv n _ _) R j Hj Z).
    + intros (L & R). destruct (B L R) as (E & F & _). now exists E.
  - rewrite invariant_space_symmetric_eq, n_smallest_eq, RM. reflexivity.
Qed.
(** Whenever a value is an eigenvalue - as it should be - there is no eigenvector for it. *)
Theorem C93_exact_fails : forall fuel M n, wf M -> nr M = n -> nc M = n -> (0 < n)%nat ->
  (forall v i, spectrum fuel M = Some (Some v) -> (i < n)%nat -> eigenvalue n (ent M) (ent v i 0%nat) -> spectrum_with_invariant_space fuel M = None) /\
  (forall v i, spectrum_symmetric fuel M = Some (Some v) -> (i < n)%nat -> eigenvalue n (ent M) (ent v i 0%nat) -> spectrum_with_invariant_space_symmetric fuel M = None /\ spectrum_with_n_th fuel M i = None /\ forall k, (i < k)%nat -> spectrum_with_n_smallest fuel M k = None).
Proof.
  intros fuel M n W RM CM Hn. destruct (C93_defined fuel M n W RM CM Hn) as (A & B & C & D). split.
  - intros v i S0 Hi X. apply (A v S0). exists i. split; [exact Hi|]. intros R. exact (regular_eigen n _ _ Hn R X).
  - intros v i S0 Hi X. assert (forall k, (i < k)%nat -> spectrum_with_n_smallest fuel M k = None) as K by (intros k Hk; apply (B v S0); right; exists i; split; [exact Hk|]; intros R; exact (regular_eigen n _ _ Hn R X)).
    split; [rewrite D; now apply K|]. split; [|exact K]. apply (C v S0). right. intros R. exact (regular_eigen n _ _ Hn R X).
Qed.
(** So all triangular matrices fail, and all symmetric tridiagonal ones that fall into blocks of order at most two. *)
Theorem C93_triangular_refuted : forall fuel M n, wf M -> nr M = n -> nc M = n -> (0 < n)%nat -> upper_triangular n (ent M) -> spectrum_with_invariant_space (S fuel) M = None.
Proof.
  intros fuel M n W RM CM Hn U. destruct (C82_triangular fuel M n W RM CM U) as (v & S0 & _ & _ & _ & _ & _ & X). apply (proj1 (C93_exact_fails (S fuel) M n W RM CM Hn) v 0%nat S0 Hn). apply X. now exists 0%nat.
Qed.
Theorem C93_split_refuted : forall fuel M n, wf M -> nr M = n -> nc M = n -> (2 <= n)%nat -> symmetric n (ent M) -> same n n (ent M) (tridiagonal (ent M)) -> (forall j, (j + 2 < n)%nat -> 0 <= ent M (j + 1) j) ->
  (forall j, (j + 1 < n)%nat -> ent M (j + 1) j = 0 \/ / 10 ^ 10 < Rabs (ent M (j + 1) j)) -> (forall j, (j + 2 < n)%nat -> ent M (j + 1) j = 0 \/ ent M (j + 2) (j + 1) = 0) ->
  spectrum_with_invariant_space_symmetric (S fuel) M = None /\ (forall k, (0 < k)%nat -> spectrum_with_n_smallest (S fuel) M k = None) /\ forall k, spectrum_with_n_th (S fuel) M k = None.
Proof.
  intros fuel M n W RM CM Hn Y T P D B. destruct (C90_split fuel M n W RM CM Hn Y T P D B) as (v & S0 & _ & _ & _ & _ & X). assert (0 < n)%nat as Hn' by lia.
  pose proof (proj2 (C93_exact_fails (S fuel) M n W RM CM Hn')) as F. assert (forall i, (i < n)%nat -> eigenvalue n (ent M) (ent v i 0%nat)) as G by (intros i Hi; apply X; now exists i).
  destruct (F v 0%nat S0 Hn' (G 0%nat Hn')) as (F1 & F2 & F3). split; [exact F1|]. split; [exact F3|]. intros k. destruct (Nat.lt_ge_cases k n) as [L|L]; [now destruct (F v k S0 L (G k L)) as (_ & ? & _)|].
  apply (proj1 (proj2 (proj2 (C93_defined (S fuel) M n W RM CM Hn'))) v S0 k). now left.
Qed.
(** What the vectors are worth.  For a symmetric matrix the residual is at most that of the vector of ones; ... *)
Theorem C93_residual : forall fuel M n k v E, wf M -> nr M = n -> nc M = n -> symmetric n (ent M) -> spectrum_with_n_smallest fuel M k = Some (Some (v, E)) -> forall i, (i < k)%nat ->
  let A := ent M in let l := ent v i 0%nat in let x := column (ent E) i in
  norm2 n (fun r => apply_mat n A x r - l * x r) <= norm2 n (fun r => sum n (fun j => A r j) / sqrt (INR n) - l / sqrt (INR n)).
Proof.
  intros fuel M n k v E W RM CM Y F i Hi A l x. destruct (C93_n_smallest_partial fuel M n k v E W RM CM F) as (_ & Hk & _ & _ & _ & T). destruct (T i Hi) as [_ TS].
  pose proof (twice_residual n A l x ltac:(lia) Y TS) as R. rewrite (norm2_ext n _ (fun i => apply_mat n A x i - l * x i)) in R by (intros; now apply minus_apply).
  rewrite (norm2_ext n (apply_mat n (minus A l) _) (fun i => sum n (fun j => A i j) / sqrt (INR n) - l / sqrt (INR n))) in R; [exact R|]. intros r Hr. rewrite minus_apply by exact Hr. unfold apply_mat, Rdiv. rewrite <- rsum_mul_r. f_equal; [|ring].
  apply rsum_ext. intros; cbn; ring.
Qed.
(** ... an eigenvector whose entries sum to zero is orthogonal to all of them, so it is never found; ... *)
Theorem C93_misses_refuted : forall fuel M n k v E, wf M -> nr M = n -> nc M = n -> symmetric n (ent M) -> spectrum_with_n_smallest fuel M k = Some (Some (v, E)) ->
  forall y mu, (forall i, (i < n)%nat -> apply_mat n (ent M) y i = mu * y i) -> sum n y = 0 -> forall i, (i < k)%nat -> inner n (column (ent E) i) y = 0.
Proof.
  intros fuel M n k v E W RM CM Y F y mu EY SY i Hi. destruct (C93_n_smallest_partial fuel M n k v E W RM CM F) as (_ & Hk & _ & _ & _ & T). destruct (T i Hi) as [NE TS].
  exact (twice_misses n (ent M) _ _ y mu ltac:(lia) Y NE TS EY SY).
Qed.
(** ... and for a matrix with constant row sums - the Laplacian of a graph, say - every vector returned is the vector of ones, normalised. *)
Theorem C93_constant_refuted : forall fuel M n c, wf M -> nr M = n -> nc M = n -> (forall i, (i < n)%nat -> sum n (fun j => ent M i j) = c) ->
  (forall k v E, spectrum_with_n_smallest fuel M k = Some (Some (v, E)) -> forall r i, (r < n)%nat -> (i < k)%nat -> ent E r i = 1 / sqrt (INR n)) /\
  (forall v E, spectrum_with_invariant_space fuel M = Some (Some (v, E)) -> forall r i, (r < n)%nat -> (i < n)%nat -> ent E r i = 1 / sqrt (INR n)).
Proof.
  intros fuel M n c W RM CM RS. split.
  - intros k v E F r i Hr Hi. destruct (C93_n_smallest_partial fuel M n k v E W RM CM F) as (_ & Hk & _ & _ & _ & T). destruct (T i Hi) as [NE TS]. exact (twice_constant n (ent M) _ _ c ltac:(lia) NE TS RS r Hr).
  - intros v E F r i Hr Hi. destruct (C93_invariant_space_partial fuel M n v E W RM CM ltac:(lia) F) as (_ & _ & _ & _ & T). destruct (T i Hi) as [NE TS]. exact (twice_constant n (ent M) _ _ c ltac:(lia) NE TS RS r Hr).
Qed.
Theorem C93_panics : forall fuel M k, nr M <> nc M \/ (nr M < 2)%nat -> spectrum_with_invariant_space_symmetric fuel M = None /\ spectrum_with_n_smallest fuel M k = None /\ spectrum_with_n_th fuel M k = None /\ (nr M <> nc M -> spectrum_with_invariant_space fuel M = None).
Proof.
  intros fuel M k H. unfold spectrum_with_n_th. rewrite invariant_space_symmetric_eq, n_smallest_eq, invariant_space_eq, start_mk, C90_panics by exact H. cbn [obind].
  destruct (Nat.eqb_spec (nr M) (nc M)) as [E|E]; repeat split; try reflexivity. intros X. contradiction.
Qed.

Lemma det3 (A : nat -> nat -> R) k : (0 < k <= 3)%nat -> determinant k A = match k with
  | 1%nat => A 0%nat 0%nat | 2%nat => A 0%nat 0%nat * A 1%nat 1%nat - A 1%nat 0%nat * A 0%nat 1%nat | _ => A 0%nat 0%nat * (A 1%nat 1%nat * A 2%nat 2%nat - A 2%nat 1%nat * A 1%nat 2%nat) - A 1%nat 0%nat * (A 0%nat 1%nat * A 2%nat 2%nat - A 2%nat 1%nat * A 0%nat 2%nat) + A 2%nat 0%nat * (A 0%nat 1%nat * A 1%nat 2%nat - A 1%nat 1%nat * A 0%nat 2%nat) end%R.
Proof. intros H. destruct k as [|[|[|[|k]]]]; try lia; cbn; unfold signed, minor; cbn; ring. Qed.
(** * An example with a result: [inv_a] is not tridiagonal, and its spectrum is found up to 10^(-10). *)
Definition inv_d : R := / 10 ^ 12.
Definition inv_a : nat -> nat -> R := sym3 25 3 4 (41 + 24 * inv_d) (-12 + 7 * inv_d) (34 - 24 * inv_d).
Definition inv_t : nat -> nat -> R := sym3 25 5 0 25 (25 * inv_d) 50.
Lemma inv_tri : householder_tridiagonalization (mk 3 3 inv_a) false = Some (mk 3 3 (sym3 25 5 4 25 (25 * inv_d) 50)).
Proof.
  unfold householder_tridiagonalization. rewrite nr_mk. change (usub 3 2) with (Some 1%nat). cbn [obind]. unfold rng. cbn [Nat.sub seq foldM].
  rewrite tri_step_mk by lia. cbn [obind]. f_equal. apply mk_ext.
  assert (tail_sq (3 - (0 + 1)) (tri_x 0 inv_a) = 16) as TS by (unfold tail_sq, tri_x; cbn; ring).
  assert (norm2 (3 - (0 + 1)) (tri_x 0 inv_a) = 5) as N by (unfold norm2; replace (inner (3 - (0 + 1)) (tri_x 0 inv_a) (tri_x 0 inv_a)) with (5 * 5) by (unfold inner, tri_x; cbn; ring); apply sqrt_square; lra).
  assert (hv_h (3 - (0 + 1)) (tri_x 0 inv_a) = -2) as HH by (unfold hv_h; rewrite N; unfold tri_x; cbn; ring).
  assert (hv_b (3 - (0 + 1)) (tri_x 0 inv_a) = 2 / 5) as HB by (unfold hv_b; rewrite TS, HH; destruct (Req_EM_T 16 0); lra).
  assert (hv_v (3 - (0 + 1)) (tri_x 0 inv_a) 0 = 1) as V0 by apply hv_v0.
  assert (hv_v (3 - (0 + 1)) (tri_x 0 inv_a) 1 = -2) as V1 by (unfold hv_v; rewrite TS, HH; destruct (Req_EM_T 16 0); [lra|]; unfold tri_x; cbn; lra).
  assert (forall k, tri_p 3 0 inv_a k = (inv_a (1 + k)%nat 1%nat - 2 * inv_a (1 + k)%nat 2%nat) * (2 / 5)) as TP.
  { intros k. unfold tri_p. rewrite HB. cbn [Nat.sub Nat.add sum] in *. rewrite V0, V1. cbn [tadd tmul t0 ops_R]. ring. }
  assert (forall k, tri_w 3 0 inv_a k = tri_p 3 0 inv_a k - hv_v (3 - (0 + 1)) (tri_x 0 inv_a) k * (2 / 5) / 2 * (tri_p 3 0 inv_a 0 - 2 * tri_p 3 0 inv_a 1)) as TW.
  { intros k. unfold tri_w. rewrite HB. unfold inner. cbn [Nat.sub Nat.add sum] in *. rewrite V0, V1. cbn [tadd tmul t0 ops_R]. field. }
  intros i j Hi Hj. unfold tri_next, rank2.
  destruct i as [|[|[|i]]]; try lia; destruct j as [|[|[|j]]]; try lia; cbn [Nat.eqb Nat.leb Nat.add andb orb Nat.min Nat.max Nat.sub] in *; rewrite ?N, ?TW, ?V0, ?V1, ?TP; unfold inv_a, sym3; cbn [Nat.add]; try reflexivity; try field.
Qed.
Lemma inv_spectrum fuel : spectrum_symmetric (S fuel) (mk 3 3 inv_a) = Some (Some (Mat 3 1 [[20]; [30]; [50]])).
Proof.
  unfold spectrum_symmetric. rewrite nr_mk, nc_mk, Nat.eqb_refl.
  destruct (symmetric_qr_mk (S fuel) 3 inv_a ltac:(lia) (sym3_sym _ _ _ _ _ _)) as (t & ET & _ & ->). rewrite inv_tri in ET.
  assert (mk 3 3 (sym3 25 5 4 25 (25 * inv_d) 50) = mk 3 3 t) as EM by congruence.
  assert (mk 3 3 (tridiagonal t) = mk 3 3 inv_t) as ->.
  { apply mk_ext. intros i j Hi Hj. assert (t i j = sym3 25 5 4 25 (25 * inv_d) 50 i j) as E by (rewrite <- (ent_mk 3 3 t i j Hi Hj), <- EM, ent_mk by assumption; reflexivity).
    unfold tridiagonal. rewrite E. destruct i as [|[|[|i]]]; try lia; destruct j as [|[|[|j]]]; try lia; reflexivity. }
  assert (0 < inv_d < / 1000000000000 + / 1000000000000) as ID by (unfold inv_d; lra).
  assert (mk 3 3 (dropped sq_tol inv_t) = mk 3 3 (sym3 25 5 0 25 0 50)) as ED.
  { apply mk_ext. intros i j Hi Hj. unfold dropped, inv_t, sq_tol. rewrite ?(Rabs_right (25 * inv_d)) by lra.
    destruct i as [|[|[|i]]]; try lia; destruct j as [|[|[|j]]]; try lia; cbn [Nat.eqb Nat.add sym3]; try reflexivity; destruct (Rlt_dec _ _) as [L|L]; try reflexivity; rewrite Rabs_right in L by lra; lra. }
  rewrite (sq_at_once fuel false 3 inv_t); [|lia|apply sym3_sym| |].
  - rewrite ED. cbn [obind]. assert (sym_blocks 3 (mk 3 3 (sym3 25 5 0 25 0 50)) 0 = Some [20; 30; 50]) as ->.
    { cbn [sym_blocks]. rewrite nr_mk. change (0 <? 3)%nat with true. change (0 =? 3 - 1)%nat with false. cbn iota. rewrite mget_in by lia. cbn [obind]. change (sym3 25 5 0 25 0 50 (0 + 1)%nat 0%nat) with 5.
      destruct (rltb_spec (Rabs 5) (/ 100000000000000)) as [L|_]; [rewrite Rabs_right in L by lra; lra|]. rewrite msub_view_mk by lia. cbn [obind]. change (0 + 2 - 0)%nat with 2%nat. rewrite two_mk. cbn zeta. cbn [Nat.add]. cbn [sym3].
      replace ((25 + 25) / 2) with 25 by lra. replace (25 * 25 - (25 * 25 - 5 * 5)) with (5 * 5) by ring. rewrite sqrt_square by lra. destruct (rltb_spec 0 (5 * 5)) as [_|L]; [|lra]. cbn [obind].
      change (2 <? 3)%nat with true. change (2 =? 3 - 1)%nat with true. cbn iota. cbn [obind]. rewrite mget_in by lia. cbn [obind]. cbn [Nat.add]. change (3 <? 3)%nat with false. cbn iota. cbn [obind]. cbn [sym3]. repeat f_equal; lra. }
    cbn [obind rsort rinsert]. destruct (rleb_spec 30 50) as [_|L]; [|lra]. cbn [rinsert]. destruct (rleb_spec 20 30) as [_|L]; [|lra]. reflexivity.
  - intros i j Hi Hj. destruct i as [|[|[|i]]]; try lia; destruct j as [|[|[|j]]]; try lia; reflexivity.
  - intros i Hi. assert (i = 0%nat) as -> by lia. right. rewrite <- (ent_mk 3 3 (dropped sq_tol inv_t)) by lia. rewrite ED, ent_mk by lia. cbn [Nat.add sym3]. rewrite Rabs_R0. unfold sq_tol. lra.
Qed.
Example C93_nonvacuous : exists E, spectrum_with_n_smallest 1 (mk 3 3 inv_a) 3 = Some (Some (Mat 3 1 [[20]; [30]; [50]], E)) /\ symmetric 3 (ent (mk 3 3 inv_a)).
Proof.
  pose proof (inv_spectrum 0) as S0. destruct (C93_defined 1 (mk 3 3 inv_a) 3 (wf_mk _ _ _) eq_refl eq_refl ltac:(lia)) as (_ & B & _ & _). destruct (proj2 (proj1 (B _ S0 3%nat))) as (E & F).
  - split; [lia|]. intros i Hi k Hk.
    rewrite (det3 (minus (ent (mk 3 3 inv_a)) (ent (Mat 3 1 [[20]; [30]; [50]]) i 0)) k Hk).
    unfold minus. rewrite !ent_mk by lia.
    destruct i as [|[|[|i]]]; try lia; destruct k as [|[|[|[|k]]]]; try lia; cbn; unfold inv_d; lra.
  - exists E. split; [exact F|]. intros i j Hi Hj. rewrite !ent_mk by assumption. apply sym3_sym; assumption.
Qed.
Print Assumptions C93_invariant_space_partial.
Print Assumptions C93_invariant_space_symmetric_partial.
Print Assumptions C93_n_smallest_partial.
Print Assumptions C93_n_th_partial.
Print Assumptions C93_defined.
Print Assumptions C93_exact_fails.
Print Assumptions C93_triangular_refuted.
Print Assumptions C93_split_refuted.
Print Assumptions C93_residual.
Print Assumptions C93_misses_refuted.
Print Assumptions C93_constant_refuted.
Print Assumptions C93_panics.
