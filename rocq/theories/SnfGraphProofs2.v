(** The invariant of the pivot phase on matrices whose columns have at most one 1 and at most one -1: rows that are left are sets of
    merged rows (contracted components), and a row of the column transform shows on which side of a tree edge the ends of an edge are. *)
From Coq Require Import List Arith ZArith Bool Lia ZifyBool ZifyNat.
From Verif Require Import PidModel PidProofs MatModel MatSpec MatProofs MatProofs2 SnfModel SnfProofs SnfProofs2 SnfChkModel SnfGraphProofs.
Import ListNotations.
Open Scope nat_scope.

Section Inv.
  Variables (n m : nat) (src tgt : nat -> option nat).
  Implicit Types (S R Ri C Ci : efun) (comp : option nat -> option nat) (phi : nat -> option nat -> Z).

  Definition side comp (f : option nat -> Z) : Prop :=
    f None = 0%Z /\ exists (s : Z) (g : option nat), (s = 1 \/ s = -1)%Z /\ forall v, f v = 0%Z \/ (f v = s /\ comp v = g).
  Record GInv (i j : nat) S R Ri C Ci comp phi : Prop := {
    g_i : i <= n; g_j : j <= m;
    g_none : comp None = None;
    g_comp : forall v r, comp v = Some r -> i <= r < n;
    g_S : forall r l, i <= r < n -> j <= l < m -> S r l = (dl (comp (src l)) r - dl (comp (tgt l)) r)%Z;
    g_left : forall r l, i <= r < n -> l < j -> S r l = 0%Z;
    g_up : forall r l, r < i -> j <= l < m -> S r l = 0%Z;
    g_Sb : forall r l, r < n -> l < m -> unit_range (S r l);
    g_R : forall r u, i <= r < n -> u < n -> R r u = dl (comp (Some u)) r;
    g_Rb : forall r u, r < n -> u < n -> (0 <= R r u <= 1)%Z;
    g_Ri : forall u r, u < n -> i <= r < n -> (0 <= Ri u r <= 1)%Z;
    g_Rib : forall u r, u < n -> r < n -> unit_range (Ri u r);
    g_C : forall a l, a < m -> j <= l < m -> C a l = (phi a (src l) - phi a (tgt l) + zid a l)%Z;
    g_Cb : forall a l, a < m -> l < m -> unit_range (C a l);
    g_phi0 : forall a v, j <= a -> phi a v = 0%Z;
    g_side : forall a, side comp (phi a);
    g_Ci : forall a l, j <= a < m -> l < m -> Ci a l = zid a l;
    g_Cib : forall a l, a < m -> l < m -> unit_range (Ci a l) }.

  (** Columns without entries are skipped. *)
  Lemma GInv_skip i j j' S R Ri C Ci comp phi : GInv i j S R Ri C Ci comp phi -> j <= j' <= m ->
    (forall r l, i <= r < n -> j <= l < j' -> S r l = 0%Z) -> GInv i j' S R Ri C Ci comp phi.
  Proof.
    intros [] Hj HZ. constructor; auto; try lia.
    - intros r l Hr Hl. apply g_S0; lia.
    - intros r l Hr Hl. destruct (le_lt_dec j l); [apply HZ; lia|apply g_left0; lia].
    - intros r l Hr Hl. apply g_up0; lia.
    - intros a l Ha Hl. apply g_C0; lia.
    - intros a v Ha. apply g_phi1. lia.
    - intros a l Ha Hl. apply g_Ci0; lia.
  Qed.

  (** Two rows are exchanged. *)
  Definition tr (i k r : nat) : nat := if r =? i then k else if r =? k then i else r.
  Lemma dl_tr i k o r : dl (option_map (tr i k) o) r = dl o (tr i k r).
  Proof.
    destruct o as [x|]; cbn; [|reflexivity]. unfold tr.
    destruct (Nat.eqb_spec x i), (Nat.eqb_spec x k), (Nat.eqb_spec r i), (Nat.eqb_spec r k); subst; rewrite ?Nat.eqb_refl;
      repeat match goal with |- context [?a =? ?b] => destruct (Nat.eqb_spec a b); subst end; try reflexivity; try lia.
  Qed.
  Lemma rblk_swap i k (f : efun) p q : rblk i k 0 1 1 0 f p q = f (tr i k p) q.
  Proof. unfold rblk, tr. destruct (p =? i); [ring|]. destruct (p =? k); [ring|reflexivity]. Qed.
  Lemma cblk_swap i k (f : efun) p q : cblk i k 0 1 1 0 f p q = f p (tr i k q).
  Proof. unfold cblk, tr. destruct (q =? i); [ring|]. destruct (q =? k); [ring|reflexivity]. Qed.
  Lemma tr_range i k r a b : a <= i < b -> a <= k < b -> a <= r < b -> a <= tr i k r < b.
  Proof. intros. unfold tr. destruct (r =? i); [lia|]. destruct (r =? k); lia. Qed.
  Lemma tr_low i k r : r < i -> r < k -> tr i k r = r.
  Proof. intros. unfold tr. replace (r =? i) with false by lia. now replace (r =? k) with false by lia. Qed.
  Lemma GInv_swap i j k S R Ri C Ci comp phi : GInv i j S R Ri C Ci comp phi -> i <= k < n -> i < n ->
    GInv i j (rblk i k 0 1 1 0 S) (rblk i k 0 1 1 0 R) (cblk i k 0 1 1 0 Ri) C Ci (fun v => option_map (tr i k) (comp v)) phi.
  Proof.
    intros [] Hk Hi. constructor; auto; try lia.
    - now rewrite g_none0.
    - intros v r E. destruct (comp v) as [x|] eqn:Ex; [|discriminate]. cbn in E. injection E as <-. apply g_comp0 in Ex. apply tr_range; lia.
    - intros r l Hr Hl. rewrite rblk_swap, !dl_tr. apply g_S0; [|assumption]. apply tr_range; lia.
    - intros r l Hr Hl. rewrite rblk_swap. apply g_left0; [|assumption]. apply tr_range; lia.
    - intros r l Hr Hl. rewrite rblk_swap. rewrite tr_low by lia. now apply g_up0.
    - intros r l Hr Hl. rewrite rblk_swap. apply g_Sb0; [|assumption]. apply (tr_range i k r 0 n); lia.
    - intros r u Hr Hu. rewrite rblk_swap, dl_tr. apply g_R0; [|assumption]. apply tr_range; lia.
    - intros r u Hr Hu. rewrite rblk_swap. apply g_Rb0; [|assumption]. apply (tr_range i k r 0 n); lia.
    - intros u r Hu Hr. rewrite cblk_swap. apply g_Ri0; [assumption|]. apply tr_range; lia.
    - intros u r Hu Hr. rewrite cblk_swap. apply g_Rib0; [assumption|]. apply (tr_range i k r 0 n); lia.
    - intros a. destruct (g_side0 a) as (N & s & g & Hs & Hv). split; [exact N|]. exists s, (option_map (tr i k) g). split; [exact Hs|].
      intros v. destruct (Hv v) as [|[? ->]]; [now left|]. right. now split.
  Qed.

  (** The elimination at a pivot: [x] is the end of the edge j that lies in the component i, [y] the other end. *)
  Section Step.
    Variables (i j : nat) (S R Ri C Ci : efun) (comp : option nat -> option nat) (phi : nat -> option nat -> Z).
    Hypothesis G : GInv i j S R Ri C Ci comp phi.
    Hypothesis Hi : i < n.
    Hypothesis Hj : j < m.
    Hypothesis Hp : S i j <> 0%Z.
    Notation p := (S i j).
    Lemma pivot_unit : (p = 1 \/ p = -1)%Z.
    Proof. assert (B := g_Sb _ _ _ _ _ _ _ _ _ G i j Hi Hj). unfold unit_range in B. lia. Qed.
    Lemma pivot_ends : exists x y, comp x = Some i /\ comp y <> Some i /\
      (forall r, i <= r < n -> (S r j = p * (dl (comp x) r - dl (comp y) r))%Z) /\
      forall a, a < m -> (p * C a j = phi a x - phi a y + p * zid a j)%Z.
    Proof.
      assert (ES := fun r Hr => g_S _ _ _ _ _ _ _ _ _ G r j Hr ltac:(lia)).
      assert (EC := fun a Ha => g_C _ _ _ _ _ _ _ _ _ G a j Ha ltac:(lia)).
      assert (E := ES i ltac:(lia)).
      destruct (dl_cases (comp (src j)) i) as [[A1 A2]|[A1 A2]], (dl_cases (comp (tgt j)) i) as [[B1 B2]|[B1 B2]]; rewrite A2, B2 in E; try lia.
      - exists (src j), (tgt j). split; [exact A1|]. split; [exact B1|]. split; [intros r Hr; rewrite ES by exact Hr|intros a Ha; rewrite EC by exact Ha]; rewrite E; ring.
      - exists (tgt j), (src j). split; [exact B1|]. split; [exact A1|]. split; [intros r Hr; rewrite ES by exact Hr|intros a Ha; rewrite EC by exact Ha]; rewrite E; ring.
    Qed.
    Variables (x y : option nat).
    Hypothesis Hx : comp x = Some i.
    Hypothesis Hy : comp y <> Some i.
    Hypothesis HSj : forall r, i <= r < n -> (S r j = p * (dl (comp x) r - dl (comp y) r))%Z.
    Hypothesis HCj : forall a, a < m -> (p * C a j = phi a x - phi a y + p * zid a j)%Z.
    Set Default Proof Using "All".
    (** The row that is cleared, n if there is none. *)
    Definition k0 : nat := match comp y with Some k => k | None => n end.
    Lemma k0_range : i < k0 <= n.
    Proof. unfold k0. destruct (comp y) as [k|] eqn:E; [|lia]. assert (B := g_comp _ _ _ _ _ _ _ _ _ G y k E). assert (k <> i) by congruence. lia. Qed.
    Lemma col_j r : i < r < n -> S r j = (if r =? k0 then (- p)%Z else 0%Z).
    Proof.
      intros Hr. rewrite HSj by lia. rewrite Hx. cbn [dl]. replace (i =? r) with false by lia. unfold k0.
      destruct (comp y) as [k|]; cbn [dl]. { rewrite (Nat.eqb_sym r k). destruct (k =? r); ring. } replace (r =? n) with false by lia. ring.
    Qed.
    Definition comp' v : option nat := match comp v with Some r => if r =? i then comp y else Some r | None => None end.
    Lemma comp'_cases v : (comp v = Some i /\ comp' v = comp y) \/ (comp v <> Some i /\ comp' v = comp v).
    Proof. unfold comp'. destruct (comp v) as [r|] eqn:E; [|right; split; congruence]. destruct (Nat.eqb_spec r i) as [->|N]; [left|right]; split; congruence. Qed.
    Lemma dl_comp' v r : i < r < n -> dl (comp' v) r = (dl (comp v) r + (if (r =? k0)%nat then dl (comp v) i else 0))%Z.
    Proof.
      intros Hr. destruct (comp'_cases v) as [[A ->]|[A ->]].
      - rewrite A. cbn [dl]. rewrite Nat.eqb_refl. replace (i =? r) with false by lia. unfold k0.
        destruct (comp y) as [k|]; cbn [dl]. { rewrite (Nat.eqb_sym r k). destruct (k =? r); ring. } replace (r =? n) with false by lia. ring.
      - destruct (dl_cases (comp v) i) as [[B _]|[_ ->]]; [contradiction|]. destruct (r =? k0); ring.
    Qed.
    Definition S1 : efun := fun r l => if r =? k0 then (S k0 l + S i l)%Z else S r l.
    Definition R1 : efun := fun r u => if r =? k0 then (R k0 u + R i u)%Z else R r u.
    Definition Ri1 : efun := fun u r => if (r =? i) && (k0 <? n) then (Ri u i - Ri u k0)%Z else Ri u r.
    Definition ratio l : Z := (p * S i l)%Z.
    Definition Sk k : efun := fun r l => if (r =? i) && (j <? l) && (l <? k) then 0%Z else S1 r l.
    Definition Ck k : efun := fun a l => if (j <? l) && (l <? k) then (C a l - ratio l * C a j)%Z else C a l.
    Definition Cik k : efun := fun a l => if (a =? j) && (j <? l) && (l <? k) then ratio l else Ci a l.
    Definition phi' a v : Z := (phi a v - dl (comp v) i * (p * C a j))%Z.

    Lemma S1_i l : S1 i l = S i l.
    Proof. unfold S1. assert (X := k0_range). now replace (i =? k0) with false by lia. Qed.
    Lemma ratio_unit l : l < m -> unit_range (ratio l).
    Proof. intros Hl. unfold ratio, unit_range. assert (B := g_Sb _ _ _ _ _ _ _ _ _ G i l Hi Hl). unfold unit_range in B. destruct pivot_unit as [->| ->]; lia. Qed.
    Lemma S1_active r l : i < r < n -> j <= l < m -> S1 r l = (dl (comp' (src l)) r - dl (comp' (tgt l)) r)%Z.
    Proof.
      intros Hr Hl. rewrite !dl_comp' by lia. unfold S1. destruct (Nat.eqb_spec r k0) as [->|N].
      - rewrite !(g_S _ _ _ _ _ _ _ _ _ G) by lia. ring.
      - rewrite (g_S _ _ _ _ _ _ _ _ _ G) by lia. ring.
    Qed.
    Lemma dl01 (o : option nat) r : (0 <= dl o r <= 1)%Z.
    Proof. destruct (dl_cases o r) as [[_ ->]|[_ ->]]; lia. Qed.
    Lemma S1_unit r l : r < n -> l < m -> unit_range (S1 r l).
    Proof.
      intros Hr Hl. unfold S1. destruct (Nat.eqb_spec r k0) as [->|N]; [|now apply (g_Sb _ _ _ _ _ _ _ _ _ G)].
      assert (X := k0_range). destruct (le_lt_dec j l) as [L|L].
      - assert (E := S1_active k0 l ltac:(lia) ltac:(lia)). unfold S1 in E. rewrite Nat.eqb_refl in E. rewrite E.
        assert (A := dl01 (comp' (src l)) k0). assert (B := dl01 (comp' (tgt l)) k0). unfold unit_range. lia.
      - rewrite !(g_left _ _ _ _ _ _ _ _ _ G) by lia. unfold unit_range. lia.
    Qed.
    Lemma S1_j r : r < n -> S1 r j = if r =? i then p else 0%Z.
    Proof.
      intros Hr. assert (X := k0_range). destruct (Nat.eqb_spec r i) as [->|N]; [apply S1_i|]. destruct (lt_eq_lt_dec r i) as [[L|]|L]; [|contradiction|].
      - unfold S1. replace (r =? k0) with false by lia. apply (g_up _ _ _ _ _ _ _ _ _ G); lia.
      - unfold S1. destruct (Nat.eqb_spec r k0) as [->|N2].
        + rewrite (col_j k0) by lia. rewrite Nat.eqb_refl. ring.
        + rewrite (col_j r) by lia. now replace (r =? k0) with false by lia.
    Qed.
    Lemma R1_active r u : i < r < n -> u < n -> R1 r u = dl (comp' (Some u)) r.
    Proof.
      intros Hr Hu. rewrite dl_comp' by lia. unfold R1. destruct (Nat.eqb_spec r k0) as [->|N].
      - rewrite !(g_R _ _ _ _ _ _ _ _ _ G) by lia. reflexivity.
      - rewrite (g_R _ _ _ _ _ _ _ _ _ G) by lia. ring.
    Qed.
    Lemma R1_01 r u : r < n -> u < n -> (0 <= R1 r u <= 1)%Z.
    Proof.
      intros Hr Hu. assert (X := k0_range). unfold R1. destruct (Nat.eqb_spec r k0) as [->|N]; [|now apply (g_Rb _ _ _ _ _ _ _ _ _ G)].
      assert (E := R1_active k0 u ltac:(lia) Hu). unfold R1 in E. rewrite Nat.eqb_refl in E. rewrite E. apply dl01.
    Qed.
    Lemma Ri1_unit u r : u < n -> r < n -> unit_range (Ri1 u r).
    Proof.
      intros Hu Hr. unfold Ri1. assert (X := k0_range). destruct (Nat.eqb_spec r i) as [->|N]; cbn [andb]; [|now apply (g_Rib _ _ _ _ _ _ _ _ _ G)].
      destruct (Nat.ltb_spec k0 n) as [L|L]; [|now apply (g_Rib _ _ _ _ _ _ _ _ _ G)].
      assert (A := g_Ri _ _ _ _ _ _ _ _ _ G u i Hu ltac:(lia)). assert (B := g_Ri _ _ _ _ _ _ _ _ _ G u k0 Hu ltac:(lia)). unfold unit_range. lia.
    Qed.
    Lemma C_new a l : a < m -> j < l < m -> (C a l - ratio l * C a j = (phi' a (src l) - phi' a (tgt l) + zid a l))%Z.
    Proof.
      intros Ha Hl. unfold phi', ratio. rewrite (g_C _ _ _ _ _ _ _ _ _ G a l) by lia. rewrite (g_S _ _ _ _ _ _ _ _ _ G i l) by lia. ring.
    Qed.
    Lemma phi'_side a : a < m -> side comp' (phi' a).
    Proof.
      intros Ha. unfold phi'. destruct (g_side _ _ _ _ _ _ _ _ _ G a) as (N & s & g & Hs & Hv).
      assert (P2 : (p * p = 1)%Z) by (destruct pivot_unit as [->| ->]; reflexivity).
      split; [rewrite N, (g_none _ _ _ _ _ _ _ _ _ G); cbn [dl]; ring|].
      destruct (Nat.eq_dec a j) as [->|Na].
      { (* the new row *)
        assert (E := HCj j Ha). rewrite !(g_phi0 _ _ _ _ _ _ _ _ _ G) in E by lia. unfold id_entry in E. rewrite Nat.eqb_refl in E. cbn [t1 ops_Z] in E.
        exists (- p)%Z, (comp y). split; [destruct pivot_unit as [->| ->]; auto|]. intros v. rewrite (g_phi0 _ _ _ _ _ _ _ _ _ G) by lia.
        destruct (comp'_cases v) as [[A ->]|[A ->]].
        - right. split; [|reflexivity]. rewrite A. cbn [dl]. rewrite Nat.eqb_refl. lia.
        - left. destruct (dl_cases (comp v) i) as [[B _]|[_ ->]]; [contradiction|]. ring. }
      assert (E := HCj a Ha). unfold id_entry in E. replace (a =? j) with false in E by lia. cbn [t0 ops_Z] in E.
      rewrite Z.mul_0_r, Z.add_0_r in E. rewrite E.
      destruct (Z.eq_dec (phi a x - phi a y) 0) as [E0|E0].
      { exists s, (match g with Some r => if r =? i then comp y else g | None => None end). split; [exact Hs|]. intros v. rewrite E0, Z.mul_0_r, Z.sub_0_r.
        destruct (Hv v) as [|[A B]]; [now left|]. right. split; [exact A|]. unfold comp'. rewrite B. destruct g as [r|]; [|reflexivity]. destruct (r =? i); reflexivity. }
      assert (Cxy : (phi a x = s /\ phi a y = 0%Z /\ g = Some i) \/ (phi a x = 0%Z /\ phi a y = s /\ g = comp y)).
      { destruct (Hv x) as [X|[X X2]], (Hv y) as [Y|[Y Y2]]; try lia.
        - right. now rewrite Y2.
        - left. rewrite Hx in X2. auto. }
      destruct Cxy as [(X & Y & ->)|(X & Y & ->)]; rewrite X, Y.
      - exists (- s)%Z, (comp y). split; [lia|]. intros v. destruct (comp'_cases v) as [[A ->]|[A ->]].
        + rewrite A. cbn [dl]. rewrite Nat.eqb_refl. destruct (Hv v) as [B|[B _]]; rewrite B; [right|left]; try split; try reflexivity; lia.
        + left. destruct (dl_cases (comp v) i) as [[B _]|[_ ->]]; [contradiction|]. destruct (Hv v) as [B|[_ B]]; [rewrite B; lia|contradiction].
      - exists s, (comp y). split; [exact Hs|]. intros v. destruct (comp'_cases v) as [[A ->]|[A ->]].
        + rewrite A. cbn [dl]. rewrite Nat.eqb_refl. destruct (Hv v) as [B|[_ B]]; [|congruence]. rewrite B. right. split; [lia|reflexivity].
        + destruct (dl_cases (comp v) i) as [[B _]|[_ ->]]; [contradiction|]. destruct (Hv v) as [B|[B B2]]; rewrite B; [left; lia|right]. split; [lia|exact B2].
    Qed.
    Lemma side_diff c (f : option nat -> Z) u v : side c f -> unit_range (f u - f v).
    Proof. intros (_ & s & g & Hs & Hv). unfold unit_range. destruct (Hv u) as [->|[-> _]], (Hv v) as [->|[-> _]]; lia. Qed.
    Lemma C_new_unit a l : a < m -> j < l < m -> unit_range (C a l - ratio l * C a j).
    Proof.
      intros Ha Hl. rewrite C_new by assumption. assert (X := side_diff _ _ (src l) (tgt l) (phi'_side a Ha)).
      unfold id_entry. destruct (Nat.eqb_spec a l) as [->|]; cbn [t0 t1 ops_Z]; [|now rewrite Z.add_0_r].
      unfold phi'. rewrite !(g_phi0 _ _ _ _ _ _ _ _ _ G) by lia. rewrite (g_C _ _ _ _ _ _ _ _ _ G l j) by lia. unfold id_entry.
      replace (l =? j) with false by lia. rewrite !(g_phi0 _ _ _ _ _ _ _ _ _ G) by lia. cbn [t0 ops_Z]. unfold unit_range. lia.
    Qed.
    Definition phi2 a v : Z := if a <? m then phi' a v else 0%Z.
    Lemma GInv_step : GInv (i + 1) (j + 1) (Sk m) R1 Ri1 (Ck m) (Cik m) comp' phi2.
    Proof.
      assert (X := k0_range).
      constructor; try lia.
      - unfold comp'. now rewrite (g_none _ _ _ _ _ _ _ _ _ G).
      - intros v r E. destruct (comp'_cases v) as [[A B]|[A B]]; rewrite B in E.
        + assert (Y := g_comp _ _ _ _ _ _ _ _ _ G y r E). assert (r <> i) by congruence. lia.
        + assert (Y := g_comp _ _ _ _ _ _ _ _ _ G v r E). assert (r <> i) by congruence. lia.
      - intros r l Hr Hl. unfold Sk. replace (r =? i) with false by lia. cbn [andb]. apply S1_active; lia.
      - intros r l Hr Hl. unfold Sk. replace (r =? i) with false by lia. cbn [andb]. destruct (Nat.eq_dec l j) as [->|].
        + rewrite S1_j by lia. now replace (r =? i) with false by lia.
        + unfold S1. destruct (Nat.eqb_spec r k0) as [->|]; rewrite !(g_left _ _ _ _ _ _ _ _ _ G) by lia; reflexivity.
      - intros r l Hr Hl. unfold Sk. destruct (Nat.eqb_spec r i) as [->|].
        + replace (j <? l) with true by lia. now replace (l <? m) with true by lia.
        + cbn [andb]. unfold S1. replace (r =? k0) with false by lia. apply (g_up _ _ _ _ _ _ _ _ _ G); lia.
      - intros r l Hr Hl. unfold Sk. destruct (_ && _ && _); [unfold unit_range; lia|now apply S1_unit].
      - intros r u Hr Hu. apply R1_active; lia.
      - intros r u Hr Hu. now apply R1_01.
      - intros u r Hu Hr. unfold Ri1. replace (r =? i) with false by lia. cbn [andb]. apply (g_Ri _ _ _ _ _ _ _ _ _ G); lia.
      - intros u r Hu Hr. now apply Ri1_unit.
      - intros a l Ha Hl. unfold Ck, phi2. replace (j <? l) with true by lia. replace (l <? m) with true by lia. replace (a <? m) with true by lia. cbn [andb].
        apply C_new; lia.
      - intros a l Ha Hl. unfold Ck. destruct (j <? l) eqn:E; cbn [andb]; [|now apply (g_Cb _ _ _ _ _ _ _ _ _ G)]. replace (l <? m) with true by lia. apply C_new_unit; lia.
      - intros a v Ha. unfold phi2. destruct (Nat.ltb_spec a m) as [L|L]; [|reflexivity]. unfold phi'. rewrite (g_C _ _ _ _ _ _ _ _ _ G a j) by lia.
        rewrite !(g_phi0 _ _ _ _ _ _ _ _ _ G) by lia. unfold id_entry. replace (a =? j) with false by lia. cbn [t0 ops_Z]. lia.
      - intros a. unfold phi2. destruct (Nat.ltb_spec a m) as [L|L]; [now apply phi'_side|]. split; [reflexivity|]. exists 1%Z, None. split; [auto|]. intros v. now left.
      - intros a l Ha Hl. unfold Cik. replace (a =? j) with false by lia. cbn [andb]. apply (g_Ci _ _ _ _ _ _ _ _ _ G); lia.
      - intros a l Ha Hl. unfold Cik. destruct (_ && _ && _); [now apply ratio_unit|now apply (g_Cib _ _ _ _ _ _ _ _ _ G)].
    Qed.
  End Step.
End Inv.
