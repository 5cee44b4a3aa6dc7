(** The image of the edge-vertex matrix of a graph and its rank, from a numbering of the connected components. *)
From Coq Require Import List Arith ZArith Bool Lia ZifyBool.
From Verif Require Import PidModel MatModel MatSpec MatProofs MatProofs2 SnfModel SnfProofs RankSpec RankProofs HomProofs HomProofs4.
Import ListNotations.
Open Scope nat_scope.

Ltac zs := change (tadd (T := Z)) with Z.add in *; change (tmul (T := Z)) with Z.mul in *; change (tsub (T := Z)) with Z.sub in *; change (t0 (T := Z)) with 0%Z in *; change (t1 (T := Z)) with 1%Z in *.

Section Image.
  Variables (n m : nat) (f : nat -> nat -> Z).
  Definition im (x : nat -> Z) : Prop := exists y : nat -> Z, forall i, i < n -> x i = sum m (fun j => (f i j * y j)%Z).
  Definition unit_at (u i : nat) : Z := if i =? u then 1%Z else 0%Z.
  Lemma im_ext x y : (forall i, i < n -> x i = y i) -> im x -> im y.
  Proof. intros H (z & Hz). exists z. intros i Hi. rewrite <- H by exact Hi. auto. Qed.
  Lemma im_zero : im (fun _ => 0%Z).
  Proof. exists (fun _ => 0%Z). intros i Hi. symmetry. apply (sum_zero RZ). intros j Hj. zs; lia. Qed.
  Lemma im_add x y : im x -> im y -> im (fun i => (x i + y i)%Z).
  Proof. intros (a & Ha) (b & Hb). exists (fun j => (a j + b j)%Z). intros i Hi. rewrite Ha, Hb by exact Hi. change Z.add with (tadd (T := Z)). rewrite <- (sum_add RZ). apply sum_ext. intros j Hj. zs; ring. Qed.
  Lemma im_scale s x : im x -> im (fun i => (s * x i)%Z).
  Proof. intros (a & Ha). exists (fun j => (s * a j)%Z). intros i Hi. rewrite Ha by exact Hi. change Z.mul with (tmul (T := Z)). rewrite <- (sum_mul_l RZ). apply sum_ext. intros j Hj. zs; ring. Qed.
  Lemma im_sum k (g : nat -> nat -> Z) : (forall l, l < k -> im (g l)) -> im (fun i => sum k (fun l => g l i)).
  Proof. induction k as [|k IH]; intros H; cbn [sum]; [apply im_zero|]. apply (im_add (fun i => sum k (fun l => g l i)) (g k)); [apply IH; auto|apply H; lia]. Qed.
End Image.

Section Incidence.
  Variables (n m c : nat) (f : nat -> nat -> Z) (part : nat -> nat).
  Notation im := (im n m f). Notation im_ext := (im_ext n m f). Notation im_sum := (im_sum n m f). Notation im_scale := (im_scale n m f).
  (** Every column is the difference of two vertices of one component; differences within a component are in the image. *)
  Hypothesis cols : forall j, j < m -> exists u v, u < n /\ v < n /\ part u = part v /\ forall i, i < n -> f i j = (unit_at u i - unit_at v i)%Z.
  Hypothesis diffs : forall u v, u < n -> v < n -> part u = part v -> im (fun i => (unit_at u i - unit_at v i)%Z).
  Hypothesis part_lt : forall i, i < n -> part i < c.
  Hypothesis part_onto : forall k, k < c -> exists i, i < n /\ part i = k.
  Definition total (x : nat -> Z) (k : nat) : Z := sum n (fun i => if part i =? k then x i else 0%Z).

  Lemma sum_unit u (g : nat -> Z) : u < n -> sum n (fun i => tmul (unit_at u i) (g i)) = g u.
  Proof.
    intros Hu. rewrite (sum_single RZ n u _ Hu); [unfold unit_at; rewrite Nat.eqb_refl; zs; lia|]. intros i Hi N. unfold unit_at. replace (i =? u) with false by lia. zs; lia.
  Qed.
  Lemma total_unit u k : u < n -> total (unit_at u) k = if part u =? k then 1%Z else 0%Z.
  Proof.
    intros Hu. unfold total. rewrite (sum_ext n _ (fun i => tmul (unit_at u i) (if part i =? k then 1%Z else 0%Z))); [now rewrite (sum_unit u (fun i => if part i =? k then 1%Z else 0%Z))|].
    intros i Hi. zs; destruct (part i =? k); lia.
  Qed.
  (** A representative of every component. *)
  Lemma reps : exists rep : nat -> nat, forall k, k < c -> rep k < n /\ part (rep k) = k.
  Proof.
    clear diffs cols part_lt. induction c as [|k IH]; [exists (fun _ => 0); lia|]. destruct IH as (rep & H); [intros; apply part_onto; lia|]. destruct (part_onto k) as (i & Hi & Ei); [lia|].
    exists (fun l => if l =? k then i else rep l). intros l Hl. destruct (Nat.eqb_spec l k) as [->|N]; [auto|]. apply H. lia.
  Qed.

  Lemma im_iff x : im x <-> forall k, k < c -> total x k = 0%Z.
  Proof.
    split.
    - intros (y & Hy) k Hk. unfold total. rewrite (sum_ext n _ (fun i => sum m (fun j => ((if (part i =? k)%nat then f i j else 0) * y j)%Z))).
      + rewrite (sum_swap RZ). apply (sum_zero RZ). intros j Hj. change Z.mul with (tmul (T := Z)). rewrite (sum_mul_r RZ). destruct (cols j Hj) as (u & v & Hu & Hv & Ep & E).
        rewrite (sum_ext n _ (fun i => tsub (if part i =? k then unit_at u i else 0%Z) (if part i =? k then unit_at v i else 0%Z))) by (intros i Hi; rewrite E by exact Hi; zs; destruct (part i =? k); lia).
        rewrite (sum_ext n _ (fun i => tadd (if part i =? k then unit_at u i else 0%Z) (tmul (-1)%Z (if part i =? k then unit_at v i else 0%Z)))) by (intros i Hi; zs; destruct (part i =? k); lia).
        rewrite (sum_add RZ), (sum_mul_l RZ). fold (total (unit_at u) k) (total (unit_at v) k). rewrite !total_unit, Ep by assumption. zs; destruct (part v =? k); lia.
      + intros i Hi. rewrite Hy by exact Hi. destruct (part i =? k); [reflexivity|]. symmetry. apply (sum_zero RZ). intros j Hj. zs; lia.
    - intros H. destruct reps as (rep & HR). apply (im_ext (fun i => sum n (fun u => (x u * (unit_at u i - unit_at (rep (part u)) i))%Z))).
      + intros i Hi. rewrite (sum_ext n _ (fun u => tadd (tmul (unit_at i u) (x u)) (tmul (-1)%Z (if rep (part u) =? i then x u else 0%Z)))).
        * rewrite (sum_add RZ), (sum_mul_l RZ). rewrite (sum_unit i x Hi). enough (E : sum n (fun u => if rep (part u) =? i then x u else 0%Z) = 0%Z) by (rewrite E; zs; lia).
          destruct (Nat.eq_dec (rep (part i)) i) as [Q|Q].
          -- transitivity (total x (part i)); [|now apply H, part_lt]. unfold total. apply sum_ext. intros u Hu. destruct (Nat.eqb_spec (part u) (part i)) as [->|N]; [now replace (rep (part i) =? i) with true by lia|].
             destruct (Nat.eqb_spec (rep (part u)) i) as [K|K]; [|reflexivity]. elim N. rewrite <- K. symmetry. apply HR. now apply part_lt.
          -- apply (sum_zero RZ). intros u Hu. destruct (Nat.eqb_spec (rep (part u)) i) as [K|K]; [|reflexivity]. elim Q. transitivity (rep (part u)); [|exact K]. f_equal. rewrite <- K. apply HR. now apply part_lt.
        * intros u Hu. unfold unit_at. rewrite (Nat.eqb_sym i u), (Nat.eqb_sym i (rep (part u))). zs; destruct (u =? i), (rep (part u) =? i); lia.
      + apply im_sum. intros u Hu. apply im_scale. apply diffs; [exact Hu| |]; destruct (HR (part u) (part_lt u Hu)); auto.
  Qed.

  Lemma incidence_rank : c <= n /\ is_rank n m f (n - c).
  Proof.
    destruct reps as (rep & HR).
    set (P := fun k i => if part i =? k then 1%Z else 0%Z).
    assert (IP : independent c n P).
    { intros a Ha k Hk. destruct (HR k Hk) as [Hr Ek]. specialize (Ha (rep k) Hr). rewrite (sum_single RZ c k _ Hk) in Ha.
      - unfold P in Ha. rewrite Ek, Nat.eqb_refl in Ha. zs; lia.
      - intros l Hl N. unfold P. rewrite Ek. replace (k =? l) with false by lia. zs; lia. }
    assert (RP : rank_at_least c n P c).
    { exists (fun i k => if i =? k then 1%Z else 0%Z). eapply independent_ext; [|exact IP]. intros i j Hi Hj. unfold prod_entry. rewrite (sum_single RZ c i _ Hi); [rewrite Nat.eqb_refl; zs; lia|]. intros l Hl N. replace (i =? l) with false by lia. zs; lia. }
    assert (Hc : c <= n) by (apply (independent_le RZ integral_Z one_zero_Z Z.eq_dec c n P IP)).
    split; [exact Hc|]. split.
    - (* the rows of the other vertices are independent *)
      set (others := filter (fun i => negb (i =? rep (part i))) (seq 0 n)).
      assert (NDr : NoDup (map rep (seq 0 c))).
      { apply (NoDup_map_inv part). rewrite map_map, (map_ext_in _ (fun k => k)); [rewrite map_id; apply seq_NoDup|]. intros k Hk. apply in_seq in Hk. apply HR. lia. }
      assert (Lo : length others = n - c).
      { assert (K : length others + length (filter (fun i => i =? rep (part i)) (seq 0 n)) = n).
        { assert (G : forall l, length (filter (fun i => negb (i =? rep (part i))) l) + length (filter (fun i => i =? rep (part i)) l) = length l) by (induction l as [|i l IH]; [reflexivity|]; cbn [filter length]; destruct (i =? rep (part i)); cbn [negb length]; lia). unfold others. now rewrite G, seq_length. }
        assert (K2 : length (filter (fun i => i =? rep (part i)) (seq 0 n)) = c).
        { transitivity (length (map rep (seq 0 c))); [|now rewrite map_length, seq_length]. apply Nat.le_antisymm; apply NoDup_incl_length; try assumption; try (apply NoDup_filter, seq_NoDup).
          - intros i Hi. apply filter_In in Hi. destruct Hi as [Hi E]. apply in_seq in Hi. apply Nat.eqb_eq in E. rewrite E. apply in_map. apply in_seq. specialize (part_lt i). lia.
          - intros i Hi. apply in_map_iff in Hi. destruct Hi as (k & <- & Hk). apply in_seq in Hk. destruct (HR k) as [A B]; [lia|]. apply filter_In. split; [apply in_seq; lia|]. rewrite B. apply Nat.eqb_refl. }
        lia. }
      exists (fun t i => unit_at (nth t others 0) i). rewrite <- Lo. intros a Ha.
      assert (In_o : forall t, t < length others -> nth t others 0 < n /\ nth t others 0 <> rep (part (nth t others 0))).
      { intros t Ht. pose proof (nth_In others 0 Ht) as Hin. unfold others in Hin at 2. apply filter_In in Hin. destruct Hin as [A B]. apply in_seq in A. split; [lia|]. apply negb_true_iff, Nat.eqb_neq in B. exact B. }
      set (w := fun i => sum (length others) (fun t => (a t * unit_at (nth t others O) i)%Z)).
      assert (W0 : forall j, j < m -> sum n (fun i => (w i * f i j)%Z) = 0%Z).
      { intros j Hj. change 0%Z with (t0 (T := Z)). rewrite <- (Ha j Hj). unfold w. rewrite (sum_ext n _ (fun i => sum (length others) (fun t => ((a t * unit_at (nth t others O) i) * f i j)%Z))) by (intros i Hi; symmetry; apply (sum_mul_r RZ)).
        rewrite (sum_swap RZ). apply sum_ext. intros t Ht. unfold prod_entry. rewrite <- (sum_mul_l RZ). apply sum_ext. intros i Hi. zs; ring. }
      assert (WI : forall x, im x -> sum n (fun i => (w i * x i)%Z) = 0%Z).
      { intros x (y & Hy). rewrite (sum_ext n _ (fun i => sum m (fun j => ((w i * f i j) * y j)%Z))).
        - rewrite (sum_swap RZ). apply (sum_zero RZ). intros j Hj. change Z.mul with (tmul (T := Z)). rewrite (sum_mul_r RZ). change (tmul (T := Z)) with Z.mul. rewrite W0 by exact Hj. reflexivity.
        - intros i Hi. rewrite Hy by exact Hi. change Z.mul with (tmul (T := Z)). rewrite <- (sum_mul_l RZ). apply sum_ext. intros j Hj. zs; ring. }
      assert (WD : forall u v, u < n -> v < n -> part u = part v -> w u = w v).
      { intros u v Hu Hv E. specialize (WI _ (diffs u v Hu Hv E)). rewrite (sum_ext n _ (fun i => tadd (tmul (unit_at u i) (w i)) (tmul (-1)%Z (tmul (unit_at v i) (w i))))) in WI by (intros i Hi; zs; ring).
        rewrite (sum_add RZ), (sum_mul_l RZ) in WI. rewrite (sum_unit u w Hu), (sum_unit v w Hv) in WI. zs; lia. }
      assert (WO : forall t, t < length others -> w (nth t others 0) = a t).
      { intros t Ht. unfold w. rewrite (sum_single RZ (length others) t _ Ht); [unfold unit_at; rewrite Nat.eqb_refl; zs; lia|]. intros s Hs N. unfold unit_at. replace (_ =? _) with false; [zs; lia|]. symmetry. apply Nat.eqb_neq. intros E. apply N. symmetry.
        apply (proj1 (NoDup_nth others 0)); auto. apply NoDup_filter, seq_NoDup. }
      assert (WR : forall k, k < c -> w (rep k) = 0%Z).
      { intros k Hk. unfold w. apply (sum_zero RZ). intros t Ht. unfold unit_at. replace (_ =? _) with false; [zs; lia|]. symmetry. apply Nat.eqb_neq. intros E. destruct (In_o t Ht) as [_ K]. apply K. rewrite <- E. f_equal. symmetry. now apply HR. }
      intros t Ht. rewrite <- (WO t Ht). destruct (In_o t Ht) as [K _]. rewrite (WD _ (rep (part (nth t others 0))) K); [apply WR, part_lt, K| |]; destruct (HR _ (part_lt _ K)) as [A B]; auto.
    - intros s Hs. enough (c + s <= n) by lia. apply (compose_rank RZ integral_Z one_zero_Z Z.eq_dec c n m P f c s RP Hs).
      intros k j Hk Hj. unfold prod_entry. destruct (cols j Hj) as (u & v & Hu & Hv & Ep & E).
      rewrite (sum_ext n _ (fun i => tadd (tmul (unit_at u i) (P k i)) (tmul (-1)%Z (tmul (unit_at v i) (P k i))))) by (intros i Hi; rewrite E by exact Hi; zs; ring).
      rewrite (sum_add RZ), (sum_mul_l RZ), (sum_unit u (P k) Hu), (sum_unit v (P k) Hv). unfold P. rewrite Ep. zs; destruct (part v =? k); lia.
  Qed.
End Incidence.
