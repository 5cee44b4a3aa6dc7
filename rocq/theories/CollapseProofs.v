(** Removing a pair of cells from a chain complex, one of which occurs in the boundary of the other only and with
    coefficient 1 or -1: the homology does not change. *)
From Coq Require Import List Arith ZArith Bool Lia ZifyBool ZifyNat.
From Verif Require Import MatSpec LinSpec LinModel LinProofs3 HomSpec CompProps IsoProofs IsoProofs2.
Import ListNotations.
Open Scope nat_scope.

Lemma zsum_reindex io : forall n' n (f : nat -> Z), (forall j, j < n' -> io j < n) -> (forall j j', j < n' -> j' < n' -> io j = io j' -> j = j') ->
  (forall i, i < n -> (forall j, j < n' -> io j <> i) -> f i = 0%Z) -> sum n f = sum n' (fun j => f (io j)).
Proof.
  induction n' as [|n' IH]; intros n f B I Z0; [apply zsum_zero; intros i Hi; apply Z0; [exact Hi|lia]|]. rewrite zsum_S.
  rewrite <- (zsum_ext n' (fun j => (fun i => if i =? io n' then 0%Z else f i) (io j))).
  - rewrite <- (IH n (fun i => if i =? io n' then 0%Z else f i)); [|intros j Hj; apply B; lia|intros j j' Hj Hj'; apply I; lia|].
    + assert (E : sum n (fun i => if i =? io n' then f i else 0%Z) = f (io n')). { rewrite (zsum_one _ _ (io n')); [now rewrite Nat.eqb_refl|apply B; lia|]. intros k Hk N. now replace (k =? io n') with false by lia. }
      rewrite <- E, <- zsum_add. apply zsum_ext. intros k Hk. destruct (k =? io n'); lia.
    + intros i Hi N. cbn beta. destruct (Nat.eqb_spec i (io n')) as [->|NE]; [reflexivity|]. apply Z0; [exact Hi|]. intros j Hj. destruct (Nat.eq_dec j n') as [->|]; [congruence|apply N; lia].
  - intros j Hj. cbn beta. destruct (Nat.eqb_spec (io j) (io n')) as [E|]; [|reflexivity]. apply I in E; lia.
Qed.

(** ** Chains as functions on indices *)
Definition bd (e : nat -> nat -> nat -> Z) (c : nat -> nat) (k : nat) (y : nat -> Z) (i : nat) : Z := sum (c (S k)) (fun j => e k i j * y j)%Z.
Definition cyc e c (k : nat) (x : nat -> Z) : Prop := match k with O => True | S k' => forall i, i < c k' -> bd e c k' x i = 0%Z end.
Definition bnd e (c : nat -> nat) (k : nat) (x : nat -> Z) : Prop := exists y, forall i, i < c k -> x i = bd e c k y i.
Lemma bd_ext e c k y y' i : (forall j, j < c (S k) -> y j = y' j) -> bd e c k y i = bd e c k y' i.
Proof. intros H. apply zsum_ext. intros j Hj. now rewrite H. Qed.
Lemma bd_add e c k y a z i : bd e c k (fun j => y j + a * z j)%Z i = (bd e c k y i + a * bd e c k z i)%Z.
Proof. unfold bd. rewrite <- zsum_mul, <- zsum_add. apply zsum_ext. intros; lia. Qed.

(** ** Chains as lists *)
Definition cycl e (c : nat -> nat) k (x : list Z) : Prop := length x = c k /\ cyc e c k (fun i => nth i x 0%Z).
Definition bndl e (c : nat -> nat) k (x : list Z) : Prop := length x = c k /\ bnd e c k (fun i => nth i x 0%Z).
Lemma fn_map n (f : nat -> Z) j : j < n -> nth j (map f (seq 0 n)) 0%Z = f j.
Proof. intros H. apply nth_error_nth. rewrite nth_error_map, (nth_error_nth' _ 0) by (rewrite seq_length; exact H). cbn [option_map]. now rewrite seq_nth. Qed.
Lemma cyc_ext e c k x x' : (forall i, i < c k -> x i = x' i) -> cyc e c k x -> cyc e c k x'.
Proof. intros H. destruct k as [|k]; [auto|]. intros C i Hi. rewrite <- (C i Hi). apply bd_ext. intros; symmetry; now apply H. Qed.
Lemma bnd_ext e c k x x' : (forall i, i < c k -> x i = x' i) -> bnd e c k x -> bnd e c k x'.
Proof. intros H (y & Hy). exists y. intros i Hi. rewrite <- H by assumption. now apply Hy. Qed.

Section Abs.
  Variables (cK cL : nat -> nat) (eK eL : nat -> nat -> nat -> Z) (io : nat -> nat -> nat) (p s t : nat) (eps : Z).
  Hypothesis io_lt : forall k j, j < cL k -> io k j < cK k.
  Hypothesis io_inj : forall k j j', j < cL k -> j' < cL k -> io k j = io k j' -> j = j'.
  Hypothesis io_onto : forall k i, i < cK k -> (exists j, j < cL k /\ io k j = i) \/ (k = p /\ i = s) \/ (k = S p /\ i = t).
  Hypothesis io_s : forall j, j < cL p -> io p j <> s.
  Hypothesis io_t : forall j, j < cL (S p) -> io (S p) j <> t.
  Hypothesis s_lt : s < cK p.
  Hypothesis t_lt : t < cK (S p).
  Hypothesis ent_eq : forall k i j, i < cL k -> j < cL (S k) -> eL k i j = eK k (io k i) (io (S k) j).
  Hypothesis eps1 : (eps * eps = 1)%Z.
  Hypothesis st : eK p s t = eps.
  Hypothesis row_s : forall j, j < cK (S p) -> j <> t -> eK p s j = 0%Z.
  Hypothesis row_t : forall j, j < cK (S (S p)) -> eK (S p) t j = 0%Z.
  Hypothesis dd : forall k i j, i < cK k -> j < cK (S (S k)) -> sum (cK (S k)) (fun l => eK k i l * eK (S k) l j)%Z = 0%Z.
  Set Default Proof Using "All".
  Notation BK := (bd eK cK).
  Notation BL := (bd eL cL).
  Definition supported (k : nat) (z : nat -> Z) : Prop := (k = p -> z s = 0%Z) /\ (k = S p -> z t = 0%Z).
  Lemma off_image k i : i < cK k -> (forall j, j < cL k -> io k j <> i) -> (k = p /\ i = s) \/ (k = S p /\ i = t).
  Proof. intros Hi N. destruct (io_onto k i Hi) as [(j & Hj & E)|H]; [now destruct (N j Hj)|exact H]. Qed.
  Lemma bd_supported k z i : supported (S k) z -> i < cL k -> BK k z (io k i) = BL k (fun j => z (io (S k) j)) i.
  Proof.
    intros (S1 & S2) Hi. unfold bd. rewrite (zsum_reindex (io (S k)) (cL (S k))); [|apply io_lt|apply io_inj|].
    - apply zsum_ext. intros j Hj. now rewrite ent_eq.
    - intros j Hj N. destruct (off_image _ _ Hj N) as [(E & ->)|(E & ->)]; [rewrite (S1 E)|rewrite (S2 E)]; lia.
  Qed.
  Lemma bd_supp k z : supported (S k) z -> supported k (BK k z).
  Proof.
    intros (S1 & S2). split; intros ->.
    - unfold bd. rewrite (zsum_one _ _ t t_lt); [rewrite (S2 eq_refl); lia|]. intros j Hj N. rewrite row_s by assumption. lia.
    - unfold bd. apply zsum_zero. intros j Hj. rewrite row_t by assumption. lia.
  Qed.
  Lemma eq_on_supp k x y : supported k x -> supported k y -> (forall j, j < cL k -> x (io k j) = y (io k j)) -> forall i, i < cK k -> x i = y i.
  Proof.
    intros (A & B) (A' & B') H i Hi. destruct (io_onto k i Hi) as [(j & Hj & <-)|[(E & ->)|(E & ->)]]; [now apply H|rewrite A, A'; auto|rewrite B, B'; auto].
  Qed.
  Definition red (k : nat) (x : nat -> Z) (i : nat) : Z := if k =? p then (x i + (- (eps * x s)) * eK p i t)%Z else x i.
  Lemma red_p x i : red p x i = (x i + (- (eps * x s)) * eK p i t)%Z. Proof. unfold red. now rewrite Nat.eqb_refl. Qed.
  Lemma red_n k x i : k <> p -> red k x i = x i. Proof. intros N. unfold red. now replace (k =? p) with false by lia. Qed.
  Lemma red_s x : red p x s = 0%Z.
  Proof. rewrite red_p, st. replace (x s + - (eps * x s) * eps)%Z with (x s - (eps * eps) * x s)%Z by ring. rewrite eps1. ring. Qed.
  Lemma cyc_t x : cyc eK cK (S p) x -> x t = 0%Z.
  Proof.
    intros H. specialize (H s s_lt). unfold bd in H. rewrite (zsum_one _ _ t t_lt) in H by (intros j Hj N; rewrite row_s by assumption; lia). rewrite st in H.
    assert (E : (eps * (eps * x t) = 0)%Z) by (rewrite H; ring). rewrite Z.mul_assoc, eps1 in E. lia.
  Qed.
  Lemma red_supp k x : cyc eK cK k x -> supported k (red k x).
  Proof. intros H. split; intros ->; [apply red_s|]. rewrite red_n by lia. now apply cyc_t. Qed.
  Lemma bd_red k x i : S k = p -> i < cK k -> BK k (red p x) i = BK k x i.
  Proof.
    intros E Hi. rewrite (bd_ext _ _ _ _ (fun j => x j + (- (eps * x s)) * eK p j t)%Z) by (intros; apply red_p). rewrite bd_add. unfold bd at 2.
    rewrite <- E. rewrite dd; [ring|exact Hi|now rewrite E].
  Qed.
  Lemma red_cyc k x : cyc eK cK k x -> cyc eK cK k (red k x).
  Proof.
    destruct k as [|k]; [exact (fun H => H)|]. intros H i Hi. destruct (Nat.eq_dec (S k) p) as [E|N].
    - rewrite E at 1. rewrite bd_red by assumption. now apply H.
    - rewrite (bd_ext _ _ _ _ x) by (intros; now apply red_n). now apply H.
  Qed.
  Definition ext (k : nat) (y : nat -> Z) (i : nat) : Z := sum (cL k) (fun j => if io k j =? i then y j else 0%Z).
  Lemma ext_io k y j : j < cL k -> ext k y (io k j) = y j.
  Proof. intros Hj. unfold ext. rewrite (zsum_one _ _ j Hj); [now rewrite Nat.eqb_refl|]. intros l Hl N. destruct (Nat.eqb_spec (io k l) (io k j)) as [E|]; [|reflexivity]. apply io_inj in E; [congruence|assumption..]. Qed.
  Lemma ext_supp k y : supported k (ext k y).
  Proof.
    split; intros ->; apply zsum_zero; intros j Hj.
    - now replace (io p j =? s) with false by (pose proof (io_s j Hj); lia).
    - now replace (io (S p) j =? t) with false by (pose proof (io_t j Hj); lia).
  Qed.
  Definition retr (k : nat) (x : nat -> Z) (j : nat) : Z := red k x (io k j).
  Lemma retr_cyc k x : cyc eK cK k x -> cyc eL cL k (retr k x).
  Proof.
    intros H. pose proof (red_supp k x H) as S1. pose proof (red_cyc k x H) as C. destruct k as [|k]; [exact I|]. intros i Hi. unfold retr. rewrite <- bd_supported by assumption. apply C. now apply io_lt.
  Qed.
  Lemma ext_cyc k y : cyc eL cL k y -> cyc eK cK k (ext k y).
  Proof.
    destruct k as [|k]; [exact (fun H => H)|]. intros H i Hi. apply (eq_on_supp k (BK k (ext (S k) y)) (fun _ => 0%Z)); [apply bd_supp, ext_supp|split; reflexivity| |exact Hi].
    intros j Hj. rewrite bd_supported by (try assumption; apply ext_supp). rewrite (bd_ext _ _ _ _ y) by (intros l Hl; now apply ext_io). now apply H.
  Qed.
  Lemma retr_ext k y j : j < cL k -> retr k (ext k y) j = y j.
  Proof.
    intros Hj. unfold retr. destruct (Nat.eq_dec k p) as [E|N].
    - pose proof (proj1 (ext_supp k y) E) as Z0. subst k. rewrite red_p, Z0. rewrite ext_io by assumption. ring.
    - rewrite red_n by assumption. now apply ext_io.
  Qed.
  Lemma retr_bnd k x : cyc eK cK k x -> (bnd eL cL k (retr k x) <-> bnd eK cK k x).
  Proof.
    intros H. split; intros (y & Hy).
    - assert (A : forall i, i < cK k -> red k x i = BK k (ext (S k) y) i).
      { apply eq_on_supp; [now apply red_supp|apply bd_supp, ext_supp|]. intros j Hj. rewrite bd_supported by (try assumption; apply ext_supp). rewrite (bd_ext _ _ _ _ y) by (intros l Hl; now apply ext_io). rewrite <- Hy by assumption. reflexivity. }
      destruct (Nat.eq_dec k p) as [->|N].
      + exists (fun j => ext (S p) y j + (eps * x s) * (if (j =? t)%nat then 1 else 0))%Z. intros i Hi. rewrite bd_add, <- A, red_p by assumption. unfold bd. rewrite (zsum_one _ _ t t_lt); [rewrite Nat.eqb_refl; ring|]. intros j Hj NE. replace (j =? t) with false by lia. ring.
      + exists (ext (S k) y). intros i Hi. rewrite <- A by assumption. now rewrite red_n.
    - assert (A : exists y', supported (S k) y' /\ forall i, i < cK k -> red k x i = BK k y' i).
      { destruct (Nat.eq_dec k p) as [->|N].
        - exists (fun j => y j + (- y t) * (if (j =? t)%nat then 1 else 0))%Z. split; [split; [lia|intros _; rewrite Nat.eqb_refl; ring]|].
          intros i Hi. rewrite bd_add, red_p, (Hy s s_lt), (Hy i Hi).
          assert (E1 : BK p (fun j => if (j =? t)%nat then 1%Z else 0%Z) i = eK p i t). { unfold bd. rewrite (zsum_one _ _ t t_lt); [rewrite Nat.eqb_refl; ring|]. intros j Hj NE. replace (j =? t) with false by lia. ring. }
          assert (E2 : BK p y s = (eps * y t)%Z). { unfold bd. rewrite (zsum_one _ _ t t_lt); [now rewrite st|]. intros j Hj NE. rewrite row_s by assumption. lia. }
          rewrite E1, E2. replace (eps * (eps * y t))%Z with ((eps * eps) * y t)%Z by ring. rewrite eps1. ring.
        - destruct (Nat.eq_dec (S k) p) as [E|N'].
          + exists (red p y). split; [split; [intros _; apply red_s|lia]|]. intros i Hi. rewrite bd_red, red_n by assumption. now apply Hy.
          + exists y. split; [split; lia|]. intros i Hi. rewrite red_n by assumption. now apply Hy. }
      destruct A as (y' & S' & A). exists (fun j => y' (io (S k) j)). intros i Hi. rewrite <- bd_supported by assumption. unfold retr. apply A. now apply io_lt.
  Qed.

  Notation fn x := (fun i => nth i x 0%Z).
  Lemma collapse_quotient k ms : quotient_is (cycl eL cL k) (bndl eL cL k) ms -> quotient_is (cycl eK cK k) (bndl eK cK k) ms.
  Proof.
    set (u := fun x : list Z => map (retr k (fn x)) (seq 0 (cL k))). assert (LU : forall x, length (u x) = cL k) by (intros; unfold u; now rewrite map_length, seq_length).
    assert (NU : forall x j, j < cL k -> nth j (u x) 0%Z = retr k (fn x) j) by (intros; now apply fn_map).
    apply (quotient_transport _ _ _ _ u).
    - intros x (L & C). split; [apply LU|]. apply (cyc_ext _ _ _ (retr k (fn x))); [intros; symmetry; now apply NU|now apply retr_cyc].
    - intros x y (L & _) (L' & _). assert (G : forall i, nth i (gadd x y) 0%Z = (nth i x 0 + nth i y 0)%Z) by (intros i; apply nth_gadd; congruence).
      assert (LG : length (gadd (u x) (u y)) = cL k) by (rewrite gadd_length; rewrite !LU; reflexivity).
      apply list_ext; [now rewrite LU|]. intros j. destruct (Nat.lt_ge_cases j (cL k)) as [Hj|Hj]; [|rewrite !nth_overflow by (rewrite ?LG, ?LU; lia); reflexivity].
      rewrite nth_gadd by (rewrite !LU; reflexivity). rewrite !NU by assumption. unfold retr, red. destruct (k =? p); rewrite !G; ring.
    - intros x (L & C). unfold bndl. rewrite LU, L. split; intros (_ & B); (split; [reflexivity|]).
      + apply retr_bnd; [exact C|]. revert B. apply bnd_ext. intros; now apply NU.
      + apply retr_bnd in B; [|exact C]. revert B. apply bnd_ext. intros; symmetry; now apply NU.
    - intros y (L & C). exists (map (ext k (fn y)) (seq 0 (cK k))). assert (E : forall i, i < cK k -> nth i (map (ext k (fn y)) (seq 0 (cK k))) 0%Z = ext k (fn y) i) by (intros; now apply fn_map). split; [split|].
      + now rewrite map_length, seq_length.
      + apply (cyc_ext _ _ _ (ext k (fn y))); [intros; symmetry; now apply E|now apply ext_cyc].
      + apply list_ext; [now rewrite LU|]. intros j. destruct (Nat.lt_ge_cases j (cL k)) as [Hj|Hj]; [|rewrite !nth_overflow by (rewrite ?LU; lia); reflexivity].
        rewrite NU by assumption. rewrite <- (retr_ext k (fn y) j Hj). unfold retr. pose proof (E (io k j) (io_lt k j Hj)) as E1. unfold red. destruct (Nat.eqb_spec k p) as [Ek|Ek]; [|exact E1]. rewrite E1. subst k. now rewrite (E s s_lt).
  Qed.
  Lemma collapse_empty k x : cL k = 0 -> cycl eK cK k x -> bndl eK cK k x.
  Proof. intros E (L & C). split; [exact L|]. apply retr_bnd; [exact C|]. exists (fun _ => 0%Z). intros i Hi. lia. Qed.
End Abs.
