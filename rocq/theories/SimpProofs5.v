(** The boundary matrices. *)
From Coq Require Import List Arith ZArith NArith Bool Lia ZifyBool ZifyNat ZifyN Permutation Sorted.
From Verif Require Import UtilModel UtilSpec UtilProofs PidModel LinModel LinSpec LinProofs MatModel MatSpec MatProofs SnfModel SimpModel SimpSpec SimpProofs SimpProofs2 SimpProofs3 SimpProofs4.
Import ListNotations.
Open Scope nat_scope.

(** ** Sums over lists *)
Fixpoint lsum {A} (f : A -> Z) (l : list A) : Z := match l with [] => 0%Z | x :: t => (f x + lsum f t)%Z end.
Lemma lsum_ext {A} (f g : A -> Z) l : (forall x, In x l -> f x = g x) -> lsum f l = lsum g l.
Proof. induction l as [|x l IH]; intros H; cbn; [reflexivity|]. rewrite H by now left. rewrite IH; [reflexivity|]. intros; apply H; now right. Qed.
Lemma lsum_zero {A} (f : A -> Z) l : (forall x, In x l -> f x = 0%Z) -> lsum f l = 0%Z.
Proof. induction l as [|x l IH]; intros H; cbn; [reflexivity|]. rewrite H by now left. rewrite IH; [reflexivity|]. intros; apply H; now right. Qed.
Lemma lsum_add {A} (f g : A -> Z) l : lsum (fun x => f x + g x)%Z l = (lsum f l + lsum g l)%Z.
Proof. induction l as [|x l IH]; cbn; [reflexivity|]. rewrite IH. lia. Qed.
Lemma lsum_opp {A} (f : A -> Z) l : lsum (fun x => - f x)%Z l = (- lsum f l)%Z.
Proof. induction l as [|x l IH]; cbn; [reflexivity|]. rewrite IH. lia. Qed.
Lemma lsum_mul {A} c (f : A -> Z) l : lsum (fun x => c * f x)%Z l = (c * lsum f l)%Z.
Proof. induction l as [|x l IH]; cbn; [lia|]. rewrite IH. lia. Qed.
Lemma lsum_swap {A B} (f : A -> B -> Z) l m : lsum (fun x => lsum (f x) m) l = lsum (fun y => lsum (fun x => f x y) l) m.
Proof.
  induction l as [|x l IH]; cbn; [symmetry; now apply lsum_zero|]. rewrite IH. now rewrite <- lsum_add.
Qed.
Lemma lsum_single {A} (f : A -> Z) l x : NoDup l -> In x l -> (forall y, In y l -> y <> x -> f y = 0%Z) -> lsum f l = f x.
Proof.
  induction l as [|y l IH]; intros HN Hx H; [destruct Hx|]. inversion HN as [|? ? Hn HN']; subst. cbn. destruct Hx as [->|Hx].
  - rewrite lsum_zero; [lia|]. intros z Hz. apply H; [now right|]. intros ->. contradiction.
  - rewrite IH; [|exact HN'|exact Hx|intros; apply H; [now right|assumption]]. rewrite H; [lia|now left|]. intros ->. contradiction.
Qed.
Lemma lsum_filter {A} (f : A -> Z) p l : lsum f (filter p l) = lsum (fun x => if p x then f x else 0%Z) l.
Proof. induction l as [|x l IH]; cbn; [reflexivity|]. destruct (p x); cbn; rewrite IH; reflexivity. Qed.
Lemma lsum_app {A} (f : A -> Z) l m : lsum f (l ++ m) = (lsum f l + lsum f m)%Z.
Proof. induction l as [|x l IH]; cbn; [reflexivity|]. rewrite IH. lia. Qed.
Lemma sum_lsum {A} (f : A -> Z) (l : list A) d : sum (length l) (fun i => f (nth i l d)) = lsum f l.
Proof.
  induction l as [|x l IH] using rev_ind; [reflexivity|]. rewrite app_length. cbn [length]. rewrite Nat.add_1_r. cbn [sum]. rewrite lsum_app. cbn [lsum].
  rewrite app_nth2, Nat.sub_diag by lia. cbn [nth]. rewrite <- IH. cbn [tadd ops_Z]. replace (f x + 0)%Z with (f x) by lia. f_equal. clear IH. 
  assert (G : forall k, k <= length l -> sum k (fun i => f (nth i (l ++ [x]) d)) = sum k (fun i => f (nth i l d))).
  { induction k as [|k IHk]; intros Hk; cbn [sum]; [reflexivity|]. rewrite IHk by lia. now rewrite app_nth1 by lia. }
  now apply G.
Qed.
(** An antisymmetric double sum vanishes. *)
Lemma lsum_antisym {A} (f : A -> A -> Z) l : (forall x y, In x l -> In y l -> f x y = (- f y x)%Z) -> lsum (fun x => lsum (f x) l) l = 0%Z.
Proof.
  intros H. assert (E : lsum (fun x => lsum (f x) l) l = (- lsum (fun x => lsum (f x) l) l)%Z); [|lia].
  rewrite lsum_swap at 1. rewrite <- lsum_opp. apply lsum_ext. intros y Hy. rewrite <- lsum_opp. apply lsum_ext. intros x Hx. now apply H.
Qed.

Lemma alt_S k : alt (S k) = (- alt k)%Z.
Proof. unfold alt. rewrite Nat.even_succ, <- Nat.negb_even. destruct (Nat.even k); reflexivity. Qed.

(** ** The incidence coefficient of two words *)
Definition gtc (w : N) (x : nat) : nat := length (filter (fun y => x <? y) (bits w)).
Definition inc (v w : N) : Z := lsum (fun x => if (wclear w x =? v)%N then alt (gtc w x) else 0%Z) (bits w).

Lemma wclear_inj w x y : (w < 2 ^ 64)%N -> tb w x = true -> tb w y = true -> wclear w x = wclear w y -> x = y.
Proof.
  intros Hw Hx Hy E. assert (Hx6 : x < 64) by (apply (tb_true_lt w 64); assumption). assert (Hy6 : y < 64) by (apply (tb_true_lt w 64); assumption).
  assert (H : tb (wclear w x) x = tb (wclear w y) x) by now rewrite E. rewrite !tb_wclear in H by assumption. rewrite Hx, Nat.eqb_refl in H. cbn [andb negb] in H.
  destruct (Nat.eqb_spec x y); [assumption|discriminate].
Qed.
Lemma inc_face w x : (w < 2 ^ 64)%N -> tb w x = true -> inc (wclear w x) w = alt (gtc w x).
Proof.
  intros Hw Hx. unfold inc. rewrite (lsum_single _ (bits w) x).
  - now rewrite N.eqb_refl.
  - apply bits_NoDup.
  - now apply (proj2 (in_bits w x Hw)).
  - intros y Hy Hne. destruct (N.eqb_spec (wclear w y) (wclear w x)) as [E|]; [|reflexivity]. exfalso. apply Hne. eapply wclear_inj; [exact Hw| |exact Hx|exact E].
    now apply (proj1 (in_bits w y Hw)).
Qed.
Lemma inc_none v w : (w < 2 ^ 64)%N -> (forall x, tb w x = true -> v <> wclear w x) -> inc v w = 0%Z.
Proof.
  intros Hw H. apply lsum_zero. intros x Hx. apply (proj1 (in_bits w x Hw)) in Hx. destruct (N.eqb_spec (wclear w x) v) as [E|]; [|reflexivity]. exfalso. apply (H x Hx). now symmetry.
Qed.

Lemma wclear_comm w x y : (w < 2 ^ 64)%N -> x < 64 -> y < 64 -> wclear (wclear w x) y = wclear (wclear w y) x.
Proof.
  intros Hw Hx Hy. assert (H1 := wclear_lt w x 64 Hw Hx Hw). assert (H2 := wclear_lt w y 64 Hw Hy Hw). apply tb_ext. intros i. rewrite !tb_wclear by assumption.
  destruct (tb w i), (i =? x), (i =? y); reflexivity.
Qed.
Lemma filter_comm {A} (f g : A -> bool) l : filter f (filter g l) = filter g (filter f l).
Proof. induction l as [|x l IH]; cbn; [reflexivity|]. destruct (g x) eqn:G, (f x) eqn:F; cbn; rewrite ?G, ?F, ?IH; reflexivity. Qed.
Lemma gtc_clear w x y : (w < 2 ^ 64)%N -> tb w x = true -> x < 64 ->
  gtc (wclear w x) y = if y <? x then gtc w y - 1 else gtc w y.
Proof.
  intros Hw Hx H6. unfold gtc. rewrite bits_wclear by assumption. rewrite filter_comm. destruct (Nat.ltb_spec y x) as [H|H].
  - apply filter_neq_len; [apply NoDup_filter, bits_NoDup|]. apply filter_In. split; [now apply (proj2 (in_bits w x Hw))|]. now apply Nat.ltb_lt.
  - f_equal. apply filter_all. intros i Hi. apply filter_In in Hi. destruct Hi as [_ Hi]. apply Nat.ltb_lt in Hi. destruct (Nat.eqb_spec i x); [lia|reflexivity].
Qed.
Lemma gtc_pos w x y : (w < 2 ^ 64)%N -> tb w x = true -> y < x -> 0 < gtc w y.
Proof.
  intros Hw Hx H. unfold gtc. destruct (filter (fun z => y <? z) (bits w)) as [|a l] eqn:E; [|cbn; lia]. exfalso.
  assert (In x []) as []. rewrite <- E. apply filter_In. split; [now apply (proj2 (in_bits w x Hw))|]. now apply Nat.ltb_lt.
Qed.

(** The two ways to reach a face of codimension two cancel. *)
Lemma inc_inc (l : list N) (r s : N) : (s < 2 ^ 64)%N -> NoDup l -> (forall x, tb s x = true -> In (wclear s x) l) -> Forall (fun t => (t < 2 ^ 64)%N) l ->
  lsum (fun t => inc r t * inc t s)%Z l = 0%Z.
Proof.
  intros Hs HN Hall HF.
  transitivity (lsum (fun x => alt (gtc s x) * inc r (wclear s x))%Z (bits s)).
  { transitivity (lsum (fun t => lsum (fun x => if (wclear s x =? t)%N then (alt (gtc s x) * inc r t)%Z else 0%Z) (bits s)) l).
    - apply lsum_ext. intros t Ht. rewrite Z.mul_comm. unfold inc at 1. rewrite Z.mul_comm, <- lsum_mul. apply lsum_ext. intros x Hx. destruct (_ =? _)%N; lia.
    - rewrite lsum_swap. apply lsum_ext. intros x Hx. apply (proj1 (in_bits s x Hs)) in Hx. rewrite (lsum_single _ l (wclear s x)); [|exact HN|now apply Hall|].
      + now rewrite N.eqb_refl.
      + intros t Ht Hne. destruct (N.eqb_spec (wclear s x) t); [now subst|reflexivity]. }
  transitivity (lsum (fun x => lsum (fun y => if (x =? y) then 0%Z else if (wclear (wclear s x) y =? r)%N then (alt (gtc s x) * alt (gtc (wclear s x) y))%Z else 0%Z) (bits s)) (bits s)).
  { apply lsum_ext. intros x Hx. apply (proj1 (in_bits s x Hs)) in Hx. assert (Hx6 : x < 64) by (apply (tb_true_lt s 64); assumption).
    unfold inc. rewrite bits_wclear by assumption. rewrite lsum_filter, <- lsum_mul. apply lsum_ext. intros y Hy.
    rewrite (Nat.eqb_sym x y). destruct (y =? x); cbn [negb]; [lia|]. destruct (_ =? _)%N; lia. }
  apply lsum_antisym. intros x y Hx Hy. apply (proj1 (in_bits s x Hs)) in Hx. apply (proj1 (in_bits s y Hs)) in Hy.
  assert (Hx6 : x < 64) by (apply (tb_true_lt s 64); assumption). assert (Hy6 : y < 64) by (apply (tb_true_lt s 64); assumption).
  rewrite (Nat.eqb_sym y x), (wclear_comm s y x) by assumption. destruct (Nat.eqb_spec x y); [reflexivity|]. destruct (_ =? _)%N; [|reflexivity].
  rewrite !gtc_clear by assumption. destruct (Nat.ltb_spec y x) as [H|H].
  - replace (x <? y) with false by (symmetry; apply Nat.ltb_ge; lia). pose proof (gtc_pos s x y Hs Hx H) as HP. destruct (gtc s y) as [|k]; [lia|].
    rewrite Nat.sub_succ, Nat.sub_0_r, alt_S. lia.
  - assert (Hlt : x < y) by lia. replace (x <? y) with true by (symmetry; apply Nat.ltb_lt; lia). pose proof (gtc_pos s y x Hs Hy Hlt) as HP. destruct (gtc s x) as [|k]; [lia|].
    rewrite Nat.sub_succ, Nat.sub_0_r, alt_S. lia.
Qed.

(** ** One column *)
Lemma wclear_sub w x : (w < 2 ^ 64)%N -> tb w x = true -> (wclear w x + 2 ^ N.of_nat x = w)%N.
Proof.
  intros Hw Hx. assert (Hx6 : x < 64) by (apply (tb_true_lt w 64); assumption).
  assert (Hp : forall i, tb (2 ^ N.of_nat x) i = (i =? x)).
  { intros i. unfold tb. rewrite N.pow2_bits_eqb. destruct (Nat.eqb_spec i x) as [->|]; [apply N.eqb_refl|]. apply N.eqb_neq. lia. }
  rewrite N.add_nocarry_lxor.
  - apply tb_ext. intros i. unfold tb at 1. rewrite N.lxor_spec. fold (tb (wclear w x) i) (tb (2 ^ N.of_nat x) i). rewrite Hp, tb_wclear by assumption.
    destruct (Nat.eqb_spec i x) as [->|]; [rewrite Hx; reflexivity|]. destruct (tb w i); reflexivity.
  - apply tb_ext. intros i. rewrite tb_land, tb_0, Hp, tb_wclear by assumption. destruct (i =? x), (tb w i); reflexivity.
Qed.
Lemma wclear_order w x y : (w < 2 ^ 64)%N -> tb w x = true -> tb w y = true -> (wclear w y < wclear w x)%N <-> x < y.
Proof.
  intros Hw Hx Hy. pose proof (wclear_sub w x Hw Hx) as E1. pose proof (wclear_sub w y Hw Hy) as E2. split; intros H.
  - assert (H' : (2 ^ N.of_nat x < 2 ^ N.of_nat y)%N) by lia. apply N.pow_lt_mono_r_iff in H'; lia.
  - assert (H' : (2 ^ N.of_nat x < 2 ^ N.of_nat y)%N) by (apply N.pow_lt_mono_r; lia). lia.
Qed.

Definition is_face (v w : N) : bool := existsb (fun x => (wclear w x =? v)%N) (bits w).
Lemma is_face_spec v w : (w < 2 ^ 64)%N -> is_face v w = true <-> exists x, tb w x = true /\ v = wclear w x.
Proof.
  intros Hw. unfold is_face. rewrite existsb_exists. split.
  - intros (x & Hx & E). apply (proj1 (in_bits w x Hw)) in Hx. apply N.eqb_eq in E. exists x. split; [exact Hx|now symmetry].
  - intros (x & Hx & ->). exists x. split; [now apply (proj2 (in_bits w x Hw))|apply N.eqb_refl].
Qed.

(** With the lower cells strictly increasing and containing all the faces, the sign the loop has reached is the incidence coefficient. *)
Lemma sign_inc (l : list N) w p v : (w < 2 ^ 64)%N -> StronglySorted N.lt l -> (forall x, tb w x = true -> In (wclear w x) l) ->
  nth_error l p = Some v -> is_face v w = true -> inc v w = alt (length (filter (fun u => is_face u w) (firstn p l))).
Proof.
  intros Hw HS Hall Hp Hf. apply (is_face_spec v w Hw) in Hf. destruct Hf as (x & Hx & ->). rewrite inc_face by assumption. f_equal.
  assert (HN : forall l, StronglySorted N.lt l -> NoDup l).
  { induction 1 as [|a t H IH F]; constructor; auto. intros Ha. rewrite Forall_forall in F. specialize (F a Ha). lia. }
  assert (Hfst : forall u, In u (firstn p l) <-> In u l /\ (u < wclear w x)%N).
  { clear - HS Hp. revert p Hp. induction HS as [|a t H IH F]; intros p Hp; [destruct p; discriminate|]. rewrite Forall_forall in F. intros u. destruct p as [|p].
    - cbn in Hp. injection Hp as ->. cbn [firstn In]. split; [intros []|]. intros [[<-|Hu] Hlt]; [lia|]. specialize (F u Hu). lia.
    - cbn [nth_error] in Hp. cbn [firstn In]. rewrite (IH p Hp u). pose proof (F _ (nth_error_In _ _ Hp)) as Hlt. split.
      + intros [<-|[A B]]; [split; [now left|exact Hlt]|split; [now right|exact B]].
      + intros [[<-|A] B]; [now left|right; split; assumption]. }
  unfold gtc. rewrite <- (map_length (wclear w)). apply Permutation_length, NoDup_Permutation.
  - assert (HB := bits_NoDup w). assert (HB2 : forall y, In y (bits w) -> tb w y = true) by (intros y; apply (proj1 (in_bits w y Hw))). revert HB HB2. generalize (bits w).
    intros bs. induction bs as [|a t IH]; intros HB HB2; [constructor|]. inversion HB as [|? ? Hn HB']; subst. cbn [filter]. destruct (x <? a); [|apply IH; [assumption|intros; apply HB2; now right]].
    cbn [map]. constructor; [|apply IH; [assumption|intros; apply HB2; now right]]. intros Hi. apply in_map_iff in Hi. destruct Hi as (b & E & Hb). apply filter_In in Hb.
    apply Hn. rewrite (wclear_inj w a b Hw); [apply Hb|apply HB2; now left|apply HB2; right; apply Hb|now symmetry].
  - apply NoDup_filter. apply HN. clear - HS. revert p. induction HS as [|a t H IH F]; intros [|p]; cbn; try constructor; auto. apply Forall_forall. intros u Hu.
    rewrite Forall_forall in F. apply F. rewrite <- (firstn_skipn p t). apply in_or_app. now left.
  - intros u. rewrite filter_In, in_map_iff, Hfst, (is_face_spec u w Hw). split.
    + intros (y & <- & Hy). apply filter_In in Hy. destruct Hy as [Hy1 Hy2]. apply (proj1 (in_bits w y Hw)) in Hy1. apply Nat.ltb_lt in Hy2.
      split; [split; [now apply Hall|now apply wclear_order]|]. eauto.
    + intros ((_ & Hlt) & y & Hy & ->). exists y. split; [reflexivity|]. apply filter_In. split; [now apply (proj2 (in_bits w y Hw))|]. apply Nat.ltb_lt. eapply wclear_order; [exact Hw|exact Hx|exact Hy|exact Hlt].
Qed.
