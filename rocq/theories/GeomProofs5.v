(** The auxiliary triangle contains all the points strictly, and the run of the program satisfies the invariants. *)
From Coq Require Import Reals List Arith Lia Lra Psatz Classical.
From Verif Require Import PidModel GeomModel GeomSpec GeomProofs GeomProofs2 GeomProofs3 GeomProofs4.
Import ListNotations.
Open Scope R_scope.

(** * The auxiliary triangle *)
Definition super (ctr : pt) (r : R) (orig : pt * pt * pt) : Prop :=
  orig = ((fst ctr, snd ctr + 2 * r), (fst ctr + sqrt 3 * r, snd ctr - r), (fst ctr - sqrt 3 * r, snd ctr - r)).

Lemma max_by_ge l m : max_by Rnum l = Some m -> forall x, In x l -> x <= m.
Proof.
  destruct l as [|y l]; [discriminate|]. cbn [max_by].
  assert (forall l y m, ofold (max_step Rnum) l y = Some m -> y <= m /\ forall x, In x l -> x <= m) as G.
  { clear. induction l as [|z l IH]; intros y m H; cbn in H; [injection H as ->; split; [lra|easy]|].
    destruct (total_order_T y z) as [[Hlt|Heq]|Hgt]; apply IH in H as [H1 H2]; (split; [lra|]); intros x [<-|Hx]; auto; lra. }
  intros H. apply G in H as [H1 H2]. intros x [<-|Hx]; auto.
Qed.

Lemma original_points_R (points : list pt) orig : original_points Rnum points = Some orig ->
  exists ctr r, super ctr r orig /\ 1 <= r /\ forall p, In p points -> dist2 p ctr <= (r - 1) * (r - 1).
Proof.
  unfold original_points. set (ctr := v_div Rnum _ _). intros H.
  destruct (max_by Rnum (map (fun p : vec Rnum => two_norm Rnum (v_sub Rnum p ctr)) points)) as [mx|] eqn:E; [|discriminate].
  cbn [obind] in H. injection H as <-. exists ctr, (mx + 1).
  assert (forall p, In p points -> sqrt (dist2 p ctr) <= mx) as Hm.
  { intros p Hp. rewrite <- two_norm_dist. apply (max_by_ge _ _ E). apply in_map_iff. exists p. auto. }
  assert (0 <= mx) as H0.
  { destruct points as [|p ps]; [discriminate|]. specialize (Hm p ltac:(now left)). pose proof (sqrt_pos (dist2 p ctr)). lra. }
  split; [|split].
  - unfold super, v_add. cbn. assert (1 + 1 + 1 = 3) as -> by lra. apply f_equal2; [apply f_equal2|]; apply f_equal2; ring.
  - lra.
  - intros p Hp. specialize (Hm p Hp). pose proof (sqrt_pos (dist2 p ctr)). pose proof (sqrt_sqrt (dist2 p ctr) (dist2_nonneg _ _)). nra.
Qed.

Lemma sqrt3 : 0 < sqrt 3 /\ sqrt 3 * sqrt 3 = 3.
Proof. split; [apply sqrt_lt_R0; lra|apply sqrt_sqrt; lra]. Qed.

Lemma super_inside ctr r p1 p2 p3 x : super ctr r (p1, p2, p3) -> 1 <= r -> dist2 x ctr <= (r - 1) * (r - 1) ->
  0 < orient p1 p3 x /\ 0 < orient p3 p2 x /\ 0 < orient p2 p1 x.
Proof.
  unfold super. intros H Hr Hd. injection H as -> -> ->. destruct ctr as [c0 c1], x as [x0 x1]. unfold orient, dist2 in *. cbn [fst snd] in *.
  destruct sqrt3 as [Hs0 Hs]. set (s := sqrt 3) in *. clearbody s. set (u := x0 - c0) in *. set (v := x1 - c1) in *.
  assert (x0 = c0 + u) as X0 by (unfold u; ring). assert (x1 = c1 + v) as X1 by (unfold v; ring). clearbody u v. subst x0 x1.
  assert (u * u + v * v < r * r) as Hlt by nra.
  assert (v < r /\ - r < v) as [Hv1 Hv2] by (split; nra).
  assert (v - s * u < 2 * r).
  { apply Rnot_le_lt. intros L. assert ((v - s * u) * (v - s * u) <= 4 * (u * u + v * v)).
    { assert (4 * (u * u + v * v) - (v - s * u) * (v - s * u) = (u + s * v) * (u + s * v) + (3 - s * s) * (u * u + v * v)) as E by ring. rewrite Hs in E. pose proof (Rle_0_sqr (u + s * v)) as Q. unfold Rsqr in Q. lra. }
    assert (2 * r * (2 * r) <= (v - s * u) * (v - s * u)) by (apply Rmult_le_compat; lra). lra. }
  assert (v + s * u < 2 * r).
  { apply Rnot_le_lt. intros L. assert ((v + s * u) * (v + s * u) <= 4 * (u * u + v * v)).
    { assert (4 * (u * u + v * v) - (v + s * u) * (v + s * u) = (u - s * v) * (u - s * v) + (3 - s * s) * (u * u + v * v)) as E by ring. rewrite Hs in E. pose proof (Rle_0_sqr (u - s * v)) as Q. unfold Rsqr in Q. lra. }
    assert (2 * r * (2 * r) <= (v + s * u) * (v + s * u)) by (apply Rmult_le_compat; lra). lra. }
  assert (0 < s * r) as Hsr by nra.
  repeat split.
  - match goal with |- 0 < ?e => assert (e = s * r * (2 * r - v + s * u) + (3 - s * s) * (r * u)) as -> by ring end. rewrite Hs.
    assert (0 < s * r * (2 * r - v + s * u)) by (apply Rmult_lt_0_compat; lra). lra.
  - match goal with |- 0 < ?e => assert (e = 2 * (s * r) * (v + r)) as -> by ring end. apply Rmult_lt_0_compat; lra.
  - match goal with |- 0 < ?e => assert (e = s * r * (2 * r - v - s * u) + (s * s - 3) * (r * u)) as -> by ring end. rewrite Hs.
    assert (0 < s * r * (2 * r - v - s * u)) by (apply Rmult_lt_0_compat; lra). lra.
Qed.
Lemma super_orient ctr r p1 p2 p3 : super ctr r (p1, p2, p3) -> 1 <= r -> 0 < orient p1 p3 p2.
Proof.
  unfold super. intros H Hr. injection H as -> -> ->. destruct ctr as [c0 c1]. unfold orient. cbn [fst snd].
  destruct sqrt3 as [Hs0 Hs]. set (s := sqrt 3) in *. clearbody s. assert (0 < s * r) by nra. nra.
Qed.

(** * Sorted triples *)
Lemma sort3_rot a b c : a <> b -> a <> c -> b <> c -> sort3 b c a = sort3 a b c.
Proof. intros. apply sorted3_ext; try (apply sort3_sorted; auto). intros x. rewrite !sort3_in. tauto. Qed.
Lemma sort3_swap a b c : a <> b -> a <> c -> b <> c -> sort3 b a c = sort3 a b c.
Proof. intros. apply sorted3_ext; try (apply sort3_sorted; auto). intros x. rewrite !sort3_in. tauto. Qed.
Lemma sort3_id t : sorted3 t -> let '(a, b, c) := t in sort3 a b c = t.
Proof.
  destruct t as [[a b] c]. intros [H1 H2]. apply sorted3_ext; [apply sort3_sorted; lia|easy|]. intros x. rewrite sort3_in. cbn. intuition congruence.
Qed.
Lemma sort3_eq a b c x y z : a <> b -> a <> c -> b <> c -> x <> y -> x <> z -> y <> z ->
  (sort3 a b c = sort3 x y z <-> forall v, (v = a \/ v = b \/ v = c) <-> (v = x \/ v = y \/ v = z)).
Proof.
  intros. split.
  - intros E v. rewrite <- !sort3_in, E. tauto.
  - intros E. apply sorted3_ext; try (apply sort3_sorted; auto). intros v. rewrite !sort3_in. apply E.
Qed.

Lemma trip_cases (a b c e1 e2 k : nat) : e1 <> e2 -> e1 <> k -> e2 <> k -> a <> b /\ a <> c /\ b <> c ->
  (a = e1 \/ a = e2 \/ a = k) -> (b = e1 \/ b = e2 \/ b = k) -> (c = e1 \/ c = e2 \/ c = k) ->
  (c = k /\ ((a = e1 /\ b = e2) \/ (a = e2 /\ b = e1))) \/ (a = k /\ ((b = e1 /\ c = e2) \/ (b = e2 /\ c = e1))) \/ (b = k /\ ((c = e1 /\ a = e2) \/ (c = e2 /\ a = e1))).
Proof.
  intros H1 H2 H3 (D1 & D2 & D3) [Ha|[Ha|Ha]] [Hb|[Hb|Hb]] [Hc|[Hc|Hc]]; subst; try (exfalso; congruence); tauto.
Qed.

Definition distinct3 (a b c : nat) : Prop := a <> b /\ a <> c /\ b <> c.

Section Real.
  Variable points : list (vec Rnum).
  Variable orig : pt * pt * pt.
  Variables (ctr : pt) (r : R).
  Hypothesis Hsuper : super ctr r orig.
  Hypothesis Hr : 1 <= r.
  Hypothesis Hin : forall p, In p points -> dist2 p ctr <= (r - 1) * (r - 1).
  Notation n := (length points).
  Notation P := (pos Rnum points orig).
  Notation o a b c := (orient (P a) (P b) (P c)).
  Notation ic a b c q := (incirc (P a) (P b) (P c) (P q)).
  Notation rn := (run Rnum points orig).

  Definition hull (a b : nat) : Prop := (a = n /\ b = n + 2)%nat \/ (a = n + 2 /\ b = n + 1)%nat \/ (a = n + 1 /\ b = n)%nat.
  Definition V (k : nat) (a : nat) : Prop := (a < k \/ n <= a < n + 3)%nat.
  Definition Tri (k : nat) (a b c : nat) : Prop := distinct3 a b c /\ In (sort3 a b c) (rn k).

  Lemma P_orig : exists p1 p2 p3, orig = (p1, p2, p3) /\ P n = p1 /\ P (n + 1) = p2 /\ P (n + 2) = p3.
  Proof.
    destruct orig as [[p1 p2] p3]. exists p1, p2, p3. split; [reflexivity|]. unfold pos, index.
    destruct (Nat.ltb_spec n n); [lia|]. destruct (Nat.ltb_spec (n + 1) n); [lia|]. destruct (Nat.ltb_spec (n + 2) n); [lia|].
    replace (n - n)%nat with 0%nat by lia. replace (n + 1 - n)%nat with 1%nat by lia. replace (n + 2 - n)%nat with 2%nat by lia. repeat split; reflexivity.
  Qed.
  Lemma P_in x : (x < n)%nat -> In (P x) points.
  Proof. intros H. apply (nth_error_In points x). exact (nth_pos Rnum points orig x H). Qed.

  Lemma hull_pos a b q : hull a b -> (q < n)%nat -> 0 < o a b q.
  Proof.
    intros Hh Hq. destruct P_orig as (p1 & p2 & p3 & E & E1 & E2 & E3). rewrite E in Hsuper.
    destruct (super_inside ctr r p1 p2 p3 (P q) Hsuper Hr (Hin _ (P_in _ Hq))) as (H1 & H2 & H3).
    destruct Hh as [[-> ->]|[[-> ->]|[-> ->]]]; rewrite ?E1, ?E2, ?E3; assumption.
  Qed.
  Lemma hull_nonneg a b q : hull a b -> (n <= q < n + 3)%nat -> 0 <= o a b q.
  Proof.
    intros Hh Hq. destruct P_orig as (p1 & p2 & p3 & E & E1 & E2 & E3). rewrite E in Hsuper.
    pose proof (super_orient _ _ _ _ _ Hsuper Hr) as H.
    assert (q = n \/ q = n + 1 \/ q = n + 2)%nat as Hq' by lia.
    assert (forall x y, orient x y x = 0 /\ orient x y y = 0) as Z by (intros; split; unfold orient; ring).
    destruct Hh as [[-> ->]|[[-> ->]|[-> ->]]]; destruct Hq' as [->|[->| ->]]; rewrite ?E1, ?E2, ?E3; try (rewrite (proj1 (Z _ _)); lra); try (rewrite (proj2 (Z _ _)); lra).
    - lra.
    - rewrite (orient_rot p1 p3 p2). lra.
    - rewrite <- (orient_rot p2 p1 p3). lra.
  Qed.
  Lemma hull_V k a b q : hull a b -> (k <= n)%nat -> V k q -> 0 <= o a b q.
  Proof. intros Hh Hk [Hq|Hq]; [|now apply hull_nonneg]. apply Rlt_le, hull_pos; [easy|lia]. Qed.

  Lemma Tri_rot k a b c : Tri k a b c -> Tri k b c a.
  Proof. intros [(D1 & D2 & D3) H]. split; [repeat split; auto|]. now rewrite sort3_rot. Qed.
  Lemma Tri_swap k a b c : Tri k a b c -> Tri k b a c.
  Proof. intros [(D1 & D2 & D3) H]. split; [repeat split; auto|]. now rewrite sort3_swap. Qed.
  Lemma Tri_V k a b c : (k <= n)%nat -> Tri k a b c -> V k a.
  Proof.
    intros Hk [D H]. pose proof (run_ok Rnum points orig k Hk) as G. rewrite Forall_forall in G. apply G in H as [_ H].
    specialize (H a). rewrite sort3_in in H. apply H. now left.
  Qed.

  Lemma Inv_0 : Inv P hull (V 0) (Tri 0).
  Proof.
    assert (forall a b c, Tri 0 a b c <-> distinct3 a b c /\ (n <= a < n + 3)%nat /\ (n <= b < n + 3)%nat /\ (n <= c < n + 3)%nat) as HT.
    { intros a b c. unfold Tri. cbn [run In]. split; intros [D H]; (split; [easy|]).
      - destruct H as [H|[]]. assert (forall x, In x (tri_list (sort3 a b c)) -> (n <= x < n + 3)%nat) as G by (rewrite <- H; cbn; intros; lia).
        repeat split; apply G; apply sort3_in; auto.
      - left. apply sorted3_ext; [cbn; lia|apply sort3_sorted; apply D|]. intros x. rewrite sort3_in. cbn. unfold distinct3 in D. lia. }
    destruct P_orig as (p1 & p2 & p3 & E & E1 & E2 & E3). pose proof Hsuper as Hs. rewrite E in Hs.
    pose proof (super_orient _ _ _ _ _ Hs Hr) as Ho.
    assert (o n (n + 2)%nat (n + 1)%nat > 0) as Hpos by (rewrite E1, E2, E3; lra).
    assert (o (n + 2)%nat (n + 1)%nat n > 0) as Hpos2 by (rewrite orient_rot; lra).
    assert (o (n + 1)%nat n (n + 2)%nat > 0) as Hpos3 by (rewrite <- orient_rot; lra).
    assert (forall a b c, distinct3 a b c -> (n <= a < n + 3)%nat -> (n <= b < n + 3)%nat -> (n <= c < n + 3)%nat ->
              (0 < o a b c /\ hull a b) \/ (o a b c < 0 /\ hull b a)) as Hor.
    { intros a b c D Ha Hb Hc. unfold distinct3 in D.
      assert ((a = n /\ b = n + 2 /\ c = n + 1) \/ (a = n + 2 /\ b = n + 1 /\ c = n) \/ (a = n + 1 /\ b = n /\ c = n + 2) \/
              (a = n + 2 /\ b = n /\ c = n + 1) \/ (a = n + 1 /\ b = n + 2 /\ c = n) \/ (a = n /\ b = n + 1 /\ c = n + 2))%nat as HH by lia.
      unfold hull. destruct HH as [(-> & -> & ->)|[(-> & -> & ->)|[(-> & -> & ->)|[(-> & -> & ->)|[(-> & -> & ->)|(-> & -> & ->)]]]]].
      - left. split; [lra|lia].
      - left. split; [lra|lia].
      - left. split; [lra|lia].
      - right. split; [rewrite orient_swap; lra|lia].
      - right. split; [rewrite orient_swap; lra|lia].
      - right. split; [rewrite orient_swap; lra|lia]. }
    constructor.
    - apply Tri_rot.
    - apply Tri_swap.
    - intros a b c H. apply HT in H. right. tauto.
    - intros a b c H. apply HT in H as (D & Ha & Hb & Hc). destruct (Hor a b c D Ha Hb Hc) as [[H _]|[H _]]; lra.
    - intros a b c q H Hab [Hq|Hq]; [lia|]. apply HT in H as (D & Ha & Hb & Hc). unfold distinct3 in D.
      assert (q = a \/ q = b \/ q = c) as [->|[->| ->]] by lia; [rewrite incirc_a|rewrite incirc_b|rewrite incirc_c]; lra.
    - intros a b c d Hc Hd _ _. apply HT in Hc as (D & Ha & Hb & Hc). apply HT in Hd as (D' & _ & _ & Hd). unfold distinct3 in *. lia.
    - intros a b c H Hab. apply HT in H as (D & Ha & Hb & Hc). left. destruct (Hor a b c D Ha Hb Hc) as [[_ H]|[H _]]; [easy|lra].
    - intros a b c a' b' c' H H' EP. apply HT in H as (D & Ha & Hb & Hc). apply HT in H' as (D' & Ha' & _ & _).
      destruct (Nat.eq_dec a a') as [|Hne]; [easy|]. exfalso.
      assert (exists y, distinct3 a a' y /\ (n <= y < n + 3)%nat) as (y & Dy & Hy).
      { unfold distinct3. destruct (Nat.eq_dec b a') as [->|Hb']; [exists c|exists b]; unfold distinct3 in D; lia. }
      destruct (Hor a a' y Dy Ha Ha' Hy) as [[H _]|[H _]]; rewrite EP in H; unfold orient in H; lra.
    - intros a b Hh. assert (exists c, distinct3 a b c /\ (n <= a < n + 3)%nat /\ (n <= b < n + 3)%nat /\ (n <= c < n + 3)%nat) as (c & D & Ha & Hb & Hc).
      { unfold distinct3. destruct Hh as [[-> ->]|[[-> ->]|[-> ->]]]; [exists (n + 1)%nat|exists n|exists (n + 2)%nat]; lia. }
      exists c. split; [now apply HT|]. destruct (Hor a b c D Ha Hb Hc) as [[H _]|[_ H]]; [easy|]. unfold hull in *. lia.
  Qed.

  Lemma Inv_ext (W W' : nat -> Prop) (T T' : nat -> nat -> nat -> Prop) :
    (forall a, W a <-> W' a) -> (forall a b c, T a b c <-> T' a b c) -> Inv P hull W T -> Inv P hull W' T'.
  Proof.
    intros EW ET [H1 H2 H3 H4 H5 H6 H7 H8 H9]. constructor.
    - intros a b c. rewrite <- !ET. auto.
    - intros a b c. rewrite <- !ET. auto.
    - intros a b c. rewrite <- !ET, <- EW. eauto.
    - intros a b c. rewrite <- !ET. auto.
    - intros a b c q. rewrite <- !ET, <- EW. auto.
    - intros a b c d. rewrite <- !ET. apply H6.
    - intros a b c H Ho. apply ET in H. destruct (H7 a b c H Ho) as [Hh|(d & Hd & Hd')]; [now left|]. right. exists d. now rewrite <- ET.
    - intros a b c a' b' c'. rewrite <- !ET. eauto.
    - intros a b Hh. destruct (H9 a b Hh) as (c & Hc & Hc'). exists c. now rewrite <- ET.
  Qed.

  Section K.
    Variable k : nat.
    Hypothesis Hk : (k < n)%nat.
    Hypothesis IK : Inv P hull (V k) (Tri k).

    Lemma badb_spec a b c : Tri k a b c -> (badb Rnum points orig k (sort3 a b c) = true <-> 0 < o a b c * ic a b c k).
    Proof.
      intros Ht. assert (forall x y z, Tri k x y z -> (badb Rnum points orig k (x, y, z) = true <-> 0 < o x y z * ic x y z k)) as G.
      { intros x y z H. unfold badb. apply circ_contains_spec. now apply (i_nd P hull _ _ IK). }
      pose proof Ht as [(D1 & D2 & D3) _].
      pose proof (Tri_rot _ _ _ _ Ht) as R1. pose proof (Tri_rot _ _ _ _ R1) as R2.
      pose proof (Tri_swap _ _ _ _ Ht) as S0. pose proof (Tri_swap _ _ _ _ R1) as S1. pose proof (Tri_swap _ _ _ _ R2) as S2.
      assert (forall x y z, o y z x * ic y z x k = o x y z * ic x y z k) as Er by (intros; now rewrite orient_rot, incirc_rot).
      assert (forall x y z, o y x z * ic y x z k = o x y z * ic x y z k) as Es by (intros; rewrite orient_swap, incirc_swap; ring).
      unfold sort3. destruct (a <=? b)%nat; destruct (b <=? c)%nat; destruct (a <=? c)%nat; rewrite G; auto.
      all: try tauto.
      all: first [ rewrite (Es c a b), (Er b c a), (Er a b c); tauto | rewrite (Er b c a), (Er a b c); tauto | rewrite (Es b c a), (Er a b c); tauto
                 | rewrite (Es a b c); tauto | rewrite (Er a b c); tauto ].
    Qed.

    Notation bad := (bad P (Tri k) k).
    Notation bdry := (bdry P (Tri k) k).

    Lemma k_fresh a b c : Tri k a b c -> a <> k /\ b <> k /\ c <> k.
    Proof.
      intros H. pose proof (Tri_rot _ _ _ _ H) as R1. pose proof (Tri_rot _ _ _ _ R1) as R2.
      apply Tri_V in H, R1, R2; try lia. unfold V in *. lia.
    Qed.

    Lemma in_bad_list a b c : distinct3 a b c -> (In (sort3 a b c) (filter (badb Rnum points orig k) (rn k)) <-> bad a b c).
    Proof.
      intros D. rewrite filter_In. unfold GeomProofs4.bad. split.
      - intros [H1 H2]. assert (Tri k a b c) as Ht by (split; easy). split; [easy|]. now apply badb_spec.
      - intros [H1 H2]. split; [apply H1|]. now apply badb_spec.
    Qed.

    Lemma in_poly e1 e2 : In (e1, e2) (poly (filter (badb Rnum points orig k) (rn k))) <-> (e1 < e2)%nat /\ bdry e1 e2.
    Proof.
      assert (forall t, In t (filter (badb Rnum points orig k) (rn k)) -> sorted3 t) as Hs.
      { intros t Ht. apply filter_In in Ht as [Ht _]. pose proof (run_ok Rnum points orig k ltac:(lia)) as G. rewrite Forall_forall in G. now apply G. }
      assert (forall t, sorted3 t -> In (e1, e2) (edges3 t) -> (e1 < e2)%nat /\ exists c, distinct3 e1 e2 c /\ t = sort3 e1 e2 c) as Hc.
      { intros t Ht He. apply edges3_in in He; [|easy]. cbn [fst snd] in He. destruct He as (He & H1 & H2). split; [easy|].
        destruct t as [[a b] c]. cbn in H1, H2, Ht.
        assert ((e1 = a /\ e2 = b) \/ (e1 = a /\ e2 = c) \/ (e1 = b /\ e2 = c)) as [[-> ->]|[[-> ->]|[-> ->]]] by lia; [exists c|exists b|exists a];
          (split; [unfold distinct3; lia|]); (apply sorted3_ext; [easy|apply sort3_sorted; lia|intros x; rewrite sort3_in; cbn; intuition congruence]). }
      assert (forall c, (e1 < e2)%nat -> distinct3 e1 e2 c -> In (e1, e2) (edges3 (sort3 e1 e2 c))) as Hc'.
      { intros c He D. apply edges3_in; [apply sort3_sorted; apply D|]. cbn [fst snd]. rewrite !sort3_in. auto. }
      rewrite poly_spec. split.
      - intros (t & Ht & He & Hu). destruct (Hc t (Hs t Ht) He) as (Hlt & c & D & ->). split; [easy|].
        exists c. split; [now apply in_bad_list|]. intros d Hd. assert (distinct3 e1 e2 d) as D' by apply Hd.
        apply in_bad_list in Hd; [|easy]. apply Hu in Hd; [|now apply Hc'].
        assert (forall v, (v = e1 \/ v = e2 \/ v = d) <-> (v = e1 \/ v = e2 \/ v = c)) as G by (apply sort3_eq; try apply D; try apply D'; easy).
        specialize (proj1 (G d) ltac:(auto)). unfold distinct3 in *. lia.
      - intros (Hlt & c & Hb & Hu). assert (distinct3 e1 e2 c) as D by apply Hb.
        exists (sort3 e1 e2 c). split; [now apply in_bad_list|]. split; [now apply Hc'|].
        intros u Hu1 Hu2. destruct (Hc u (Hs u Hu1) Hu2) as (_ & d & D' & ->). apply in_bad_list in Hu1; [|easy]. now rewrite (Hu d Hu1).
    Qed.

    Lemma Tri_step a b c : Tri (S k) a b c <-> Tri' P (Tri k) k a b c.
    Proof.
      assert (forall x y, bdry x y -> x <> y /\ x <> k /\ y <> k) as Hxy.
      { intros x y (z & [Hb _] & _). pose proof (k_fresh _ _ _ Hb). destruct Hb as [D _]. unfold distinct3 in D. tauto. }
      assert (forall x y, bdry x y -> bdry y x) as Hsw by (apply (bdry_swap P hull (V k) (Tri k) IK k)).
      unfold Tri at 1, Tri'. cbn [run]. split.
      - intros [D H]. apply in_step in H as [[H Hb]|([e1 e2] & He & E)].
        + left. split; [split; easy|]. intros [Ht Hb']. apply badb_spec in Hb'; [congruence|easy].
        + right. cbn [fst snd] in E. apply in_poly in He as [Hlt He]. pose proof (Hxy _ _ He) as (X1 & X2 & X3).
          assert (forall v, (v = a \/ v = b \/ v = c) <-> (v = e1 \/ v = e2 \/ v = k)) as G by (apply sort3_eq; try apply D; easy).
          pose proof (proj1 (G a) ltac:(auto)). pose proof (proj1 (G b) ltac:(auto)). pose proof (proj1 (G c) ltac:(auto)).
          pose proof (proj2 (G k) ltac:(auto)). unfold distinct3 in D.
          assert ((c = k /\ ((a = e1 /\ b = e2) \/ (a = e2 /\ b = e1))) \/ (a = k /\ ((b = e1 /\ c = e2) \/ (b = e2 /\ c = e1))) \/ (b = k /\ ((c = e1 /\ a = e2) \/ (c = e2 /\ a = e1)))) as HH.
          { now apply trip_cases. }
          destruct HH as [(Ek & [[-> ->]|[-> ->]])|[(Ek & [[-> ->]|[-> ->]])|(Ek & [[-> ->]|[-> ->]])]]; auto 6.
      - assert (forall x y z, distinct3 x y z -> z = k -> bdry x y -> In (sort3 x y z) (step Rnum points orig (rn k) k)) as Hnew.
        { intros x y z D -> Hb. apply in_step. right. destruct (Nat.lt_total x y) as [L|[L|L]].
          - exists (x, y). split; [now apply in_poly|reflexivity].
          - unfold distinct3 in D. lia.
          - exists (y, x). split; [apply in_poly; auto|]. cbn [fst snd]. apply sort3_swap; unfold distinct3 in D; intuition congruence. }
        intros [[[D Ht] Hn]|[[Ek Hb]|[[Ek Hb]|[Ek Hb]]]].
        + split; [easy|]. apply in_step. left. split; [easy|]. apply Bool.not_true_iff_false. intros H. apply Hn. split; [split; easy|]. apply badb_spec; [split; easy|easy].
        + pose proof (Hxy _ _ Hb). assert (distinct3 a b c) as D by (unfold distinct3; subst; intuition congruence). split; [easy|]. now apply Hnew.
        + pose proof (Hxy _ _ Hb). assert (distinct3 a b c) as D by (unfold distinct3; subst; intuition congruence). split; [easy|].
          rewrite <- sort3_rot by apply D. apply Hnew; unfold distinct3 in *; intuition congruence.
        + pose proof (Hxy _ _ Hb). assert (distinct3 a b c) as D by (unfold distinct3; subst; intuition congruence). split; [easy|].
          rewrite sort3_rot by (unfold distinct3 in D; intuition congruence). apply Hnew; unfold distinct3 in *; intuition congruence.
    Qed.

    Lemma Inv_S : Inv P hull (V (S k)) (Tri (S k)).
    Proof.
      apply (Inv_ext (V' (V k) k) _ (Tri' P (Tri k) k)).
      - intros a. unfold V', V. lia.
      - intros a b c. symmetry. apply Tri_step.
      - apply (step_Inv P (n + 3)%nat hull (V k) (Tri k) IK).
        + intros a Ha. unfold V in Ha. lia.
        + intros a b q Hh Hq. apply (hull_V k); [easy|lia|easy].
        + unfold V. lia.
        + intros a b Hh. now apply hull_pos.
    Qed.
  End K.

  Theorem Inv_run k : (k <= n)%nat -> Inv P hull (V k) (Tri k).
  Proof. induction k as [|k IH]; intros Hk; [apply Inv_0|]. apply Inv_S; [lia|]. apply IH. lia. Qed.
End Real.
