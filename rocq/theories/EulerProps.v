(** Theorem C108: the alternating sum of the ranks of the homology groups is that of the numbers of cells. *)
From Coq Require Import List Arith ZArith Bool Lia ZifyBool Ring_theory Setoid.
From Verif Require Import PidModel LinModel LinSpec LinProps MatModel MatSpec MatProofs MatProofs2 SnfModel SnfProofs SnfProofs2 SnfProofs3 RankModel RankSpec RankProofs RankProps HomModel HomSpec HomProofs HomProofs2 HomProofs3 HomProofs4 HomProps.
Import ListNotations.
Open Scope nat_scope.

(** [x0 - x1 + x2 - ...] *)
Fixpoint alternating (l : list nat) : Z := match l with [] => 0%Z | x :: t => (Z.of_nat x - alternating t)%Z end.
(** The lowest boundary map, which goes to nothing, is given as a zero matrix. *)
Definition augmentation_zero {T} {OT : Ops T} (ds : list (mat T)) : Prop := forall d, nth_error ds 0 = Some d -> forall i j, i < nr d -> j < nc d -> ent d i j = t0.

Lemma alternating_app_zero l z : Forall (fun x => x = 0) z -> alternating (l ++ z) = alternating l.
Proof. intros H. induction l as [|x l IH]; cbn [app alternating]; [|now rewrite IH]. induction H as [|y z -> H IH]; [reflexivity|]. cbn [alternating]. rewrite IH. reflexivity. Qed.

(** Telescoping: [h_k + r_k + r_(k+1) = c_k]. *)
Lemma telescope (R : nat -> nat -> Prop) : (forall k r s, R k r -> R k s -> r = s) ->
  forall hs cs k, length hs = length cs -> (forall i h c, nth_error hs i = Some h -> nth_error cs i = Some c -> exists r r', R (k + i) r /\ R (k + i + 1) r' /\ h + r + r' = c) ->
  (forall r, R (k + length hs) r -> r = 0) -> forall r, R k r -> (alternating hs + Z.of_nat r = alternating cs)%Z.
Proof.
  intros RU. induction hs as [|h hs IH]; intros [|c cs] k HL H HT r Hr; try discriminate.
  - cbn. rewrite (HT r); [reflexivity|]. cbn [length]. now rewrite Nat.add_0_r.
  - destruct (H 0 h c eq_refl eq_refl) as (r0 & r1 & A & B & E). rewrite !Nat.add_0_r in *. assert (r0 = r) by (eapply RU; eassumption). subst r0. cbn [alternating].
    assert (K : (alternating hs + Z.of_nat r1 = alternating cs)%Z); [|lia]. apply (IH cs (k + 1)).
    + cbn in HL. lia.
    + intros i h' c' Hh Hc. replace (k + 1 + i) with (k + S i) by lia. now apply (H (S i)).
    + intros r' Hr'. apply HT. cbn [length]. now replace (k + S (length hs)) with (k + 1 + length hs) by lia.
    + exact B.
Qed.
Lemma zero_rank {T} {OT : Ops T} : ring_laws (T := T) -> (t1 : T) <> t0 -> forall n m (f : nat -> nat -> T) r, (forall i j, i < n -> j < m -> f i j = t0) -> rank_at_least n m f r -> r = 0.
Proof.
  intros RL N1 n m f r Hf (C & HC). destruct r as [|r]; [reflexivity|]. exfalso. apply N1. apply (HC (fun _ => t1)) with (i := 0); [|lia]. intros j Hj. apply (sum_zero RL). intros i Hi. rewrite (Rmul_1_l RL). apply (sum_zero RL). intros k Hk.
  rewrite Hf by assumption. rewrite (Rmul_comm RL). apply (ARmul_0_l (Rth_ARth (Eqsth T) (Eq_ext _ _ _) RL)).
Qed.
Lemma is_rank_unique {T} {OT : Ops T} n m (f : nat -> nat -> T) r s : is_rank n m f r -> is_rank n m f s -> r = s.
Proof. intros [A B] [C D]. specialize (B _ C). specialize (D _ A). lia. Qed.

(** Integral homology: the alternating sum of the reported free ranks, over all degrees, is that of the numbers of cells. *)
Theorem C108_integral : forall B cmp (bms : list (mat Z * list B)) out, total_order cmp -> complex_data bms -> augmentation_zero (map fst bms) ->
  integral_homology cmp bms None = Some out ->
  alternating (map (fun x => free_rank (fst (fst x))) out) = alternating (map (fun bm => length (snd bm)) bms).
Proof.
  intros B cmp bms out Ht HC HA E. destruct (homology_run cmp Ht bms None HC) as (out' & all & E' & La & (z & Ez & Hz) & HD). rewrite E in E'. injection E' as <-.
  set (fr := fun x : module_ * list (list (Z * B)) * list (list (Z * B)) => free_rank (fst (fst x))).
  assert (EA : alternating (map fr out) = alternating (map fr all)).
  { rewrite Ez, map_app. symmetry. apply alternating_app_zero. rewrite Forall_map. eapply Forall_impl; [|exact Hz]. intros x Hx. cbn beta in *. unfold module_is_zero in Hx. apply andb_true_iff in Hx. destruct Hx as [Hx _]. unfold fr. lia. }
  fold fr. rewrite EA. set (ds := map fst bms). destruct HC as (Hne & HC & HL).
  assert (EC : map (fun bm => length (snd bm)) bms = map nc ds). { unfold ds. rewrite map_map. clear -HL. induction HL as [|bm l H HL IH]; [reflexivity|]. cbn. now rewrite H, IH. }
  rewrite EC. assert (R0 : rank_of ds 0 0).
  { unfold rank_of. destruct (nth_error ds 0) as [d|] eqn:Ed; [|reflexivity]. split; [exists (fun _ _ => 0%Z); intros c _ i Hi; lia|]. intros s Hs. apply (zero_rank RZ) in Hs; [lia|discriminate|exact (HA d Ed)]. }
  assert (LD : length ds = length bms) by apply map_length.
  enough (K : (alternating (map fr all) + Z.of_nat 0 = alternating (map nc ds))%Z) by lia. apply (telescope (rank_of ds)) with (k := 0); [| | | |exact R0].
  - intros k r s. unfold rank_of. destruct (nth_error ds k); [apply is_rank_unique|congruence].
  - rewrite !map_length. lia.
  - intros i h c Hh Hc. rewrite nth_error_map in Hh, Hc. destruct (nth_error all i) as [res|] eqn:Er; [|discriminate]. injection Hh as <-. destruct (HD i res Er) as (bm & Eb & DO). assert (Ed : nth_error ds i = Some (fst bm)) by (unfold ds; now rewrite nth_error_map, Eb). rewrite Ed in Hc. injection Hc as <-.
    destruct res as [[h cyc] bnd]. destruct DO as (_ & (r & r' & A & C & F) & _). exists r, r'. cbn [Nat.add]. split; [unfold rank_of; now rewrite Ed|]. split; [|exact F]. unfold rank_of, ds. rewrite nth_error_map. destruct (nth_error bms (i + 1)); exact C.
  - intros r. unfold rank_of. rewrite (proj2 (nth_error_None ds _)); [auto|]. cbn [Nat.add]. rewrite map_length. lia.
Qed.
Print Assumptions C108_integral.

Section FieldEuler.
  Context {T : Type} {OT : Ops T} {FT : FOps T}.
  Hypothesis FL : field_laws (T := T).
  (** The same for coefficients in a field, although the numbers themselves can be wrong (C44). *)
  Theorem C108_field : forall (ds : list (mat T)) hs, field_complex ds -> augmentation_zero ds -> field_homology ds = Some hs -> alternating hs = alternating (map nc ds).
  Proof.
    intros ds hs HC HA E. destruct (C44_upper_bound_partial FL ds HC) as (hs' & E' & HL & H). rewrite E in E'. injection E' as <-. pose proof FL as (RL & _ & N1 & _).
    assert (R0 : reported_rank ds 0 0).
    { unfold reported_rank. destruct (nth_error ds 0) as [d|] eqn:Ed; [|reflexivity]. destruct (C38_lower_bound_partial FL d) as (r & Er & HR & _); [now apply (proj1 HC 0)|]. rewrite Er. f_equal. exact (zero_rank RL N1 _ _ _ _ (HA d Ed) HR). }
    enough (K : (alternating hs + Z.of_nat 0 = alternating (map nc ds))%Z) by lia. apply (telescope (reported_rank ds)) with (k := 0); [| | | |exact R0].
    - intros k r s. unfold reported_rank. destruct (nth_error ds k); congruence.
    - rewrite map_length. exact HL.
    - intros i h c Hh Hc. rewrite nth_error_map in Hc. destruct (nth_error ds i) as [d|] eqn:Ed; [|discriminate]. injection Hc as <-. destruct (H i h d Hh Ed) as (r & r' & A & B & C & _). exists r, r'. auto.
    - intros r. unfold reported_rank. rewrite (proj2 (nth_error_None ds _)); [auto|]. cbn [Nat.add]. lia.
  Qed.
End FieldEuler.
Print Assumptions C108_field.

(** The projective plane and the circle meet the hypotheses: 1 - 0 + 0 = 1 - 1 + 1 and 1 - 1 = 3 - 3. *)
Example rp2_augmentation : augmentation_zero (map fst rp2).
Proof. intros d E. injection E as <-. intros [|i] [|j] Hi Hj; try (cbn in Hi, Hj; lia). reflexivity. Qed.
Example circle_augmentation : augmentation_zero (map fst circle).
Proof. intros d E. injection E as <-. intros [|i] [|[|[|j]]] Hi Hj; try (cbn in Hi, Hj; lia); reflexivity. Qed.
Example euler_rp2 : exists out, integral_homology Z.compare rp2 None = Some out /\ alternating (map (fun x => free_rank (fst (fst x))) out) = 1%Z /\ alternating (map (fun bm => length (snd bm)) rp2) = 1%Z.
Proof. eexists. split; [vm_compute; reflexivity|]. split; reflexivity. Qed.
Example euler_circle : exists out, integral_homology Z.compare circle None = Some out /\ map (fun x => free_rank (fst (fst x))) out = [1; 1] /\ alternating (map (fun bm => length (snd bm)) circle) = 0%Z.
Proof. eexists. split; [vm_compute; reflexivity|]. split; reflexivity. Qed.
(** Without the condition on the lowest map the identity fails: its rank is lost. *)
Example euler_needs_augmentation : exists out, integral_homology Z.compare [(m1 1, [0%Z])] None = Some out /\ alternating (map (fun x => free_rank (fst (fst x))) out) = 0%Z /\ alternating (map (fun bm => length (snd bm)) [(m1 1, [0%Z])]) = 1%Z.
Proof. eexists. split; [vm_compute; reflexivity|]. split; reflexivity. Qed.
