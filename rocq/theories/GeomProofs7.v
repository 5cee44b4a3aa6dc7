(** Every point in general position of the auxiliary triangle is in exactly one triangle. *)
From Coq Require Import Reals List Arith Lia Lra Psatz ZArith Permutation Classical.
From Verif Require Import PidModel GeomModel GeomSpec GeomProofs GeomProofs2 GeomProofs3 GeomProofs4 GeomProofs5 GeomProofs6.
Import ListNotations.
Open Scope R_scope.

Definition zsum {A} (f : A -> Z) (l : list A) : Z := fold_right (fun x s => (f x + s)%Z) 0%Z l.
Lemma zsum_app {A} (f : A -> Z) l1 l2 : zsum f (l1 ++ l2) = (zsum f l1 + zsum f l2)%Z.
Proof. unfold zsum. induction l1 as [|x l1 IH]; cbn; [reflexivity|]. rewrite IH. lia. Qed.
Lemma zsum_perm {A} (f : A -> Z) l1 l2 : Permutation l1 l2 -> zsum f l1 = zsum f l2.
Proof. unfold zsum. induction 1; cbn; lia. Qed.
Lemma zsum_map {A B} (f : B -> Z) (g : A -> B) l : zsum f (map g l) = zsum (fun x => f (g x)) l.
Proof. induction l as [|x l IH]; cbn; [reflexivity|]. unfold zsum in *. now rewrite IH. Qed.
Lemma zsum_ext {A} (f g : A -> Z) l : (forall x, In x l -> f x = g x) -> zsum f l = zsum g l.
Proof. intros H. induction l as [|x l IH]; cbn; [reflexivity|]. unfold zsum in *. rewrite IH by (intros; apply H; now right). rewrite (H x) by now left. reflexivity. Qed.
Lemma zsum_opp {A} (f : A -> Z) l : zsum (fun x => (- f x)%Z) l = (- zsum f l)%Z.
Proof. unfold zsum. induction l as [|x l IH]; cbn; [reflexivity|]. rewrite IH. lia. Qed.
Lemma zsum_flat {A B} (f : B -> Z) (g : A -> list B) l : zsum f (flat_map g l) = zsum (fun x => zsum f (g x)) l.
Proof. induction l as [|x l IH]; cbn [flat_map]; [reflexivity|]. rewrite zsum_app, IH. reflexivity. Qed.
Lemma zsum_nonneg {A} (f : A -> Z) l : (forall x, In x l -> (f x = 0 \/ f x = 1)%Z) -> (0 <= zsum f l)%Z.
Proof. induction l as [|x l IH]; intros H; cbn; [lia|]. pose proof (H x ltac:(now left)). specialize (IH ltac:(intros; apply H; now right)). unfold zsum in IH. lia. Qed.
Lemma zsum_unique {A} (f : A -> Z) l : (forall x, In x l -> (f x = 0 \/ f x = 1)%Z) -> zsum f l = 1%Z ->
  (exists x, In x l /\ f x = 1%Z) /\ (NoDup l -> forall x y, In x l -> In y l -> f x = 1%Z -> f y = 1%Z -> x = y).
Proof.
  intros H01 H. split.
  - induction l as [|x l IH]; [discriminate|]. cbn in H. destruct (H01 x ltac:(now left)) as [E|E].
    + destruct IH as (y & Hy & Ey); [intros; apply H01; now right|unfold zsum; lia|]. exists y. split; [now right|easy].
    + exists x. split; [now left|easy].
  - intros Hnd x y Hx Hy Ex Ey. apply NNPP. intros Hne.
    apply in_split in Hx as (l1 & l2 & ->). assert (In y (l1 ++ l2)) as Hy'. { apply in_app_iff in Hy as [Hy|[Hy|Hy]]; [| congruence |]; apply in_app_iff; auto. }
    apply in_split in Hy' as (l3 & l4 & E). assert (Permutation (l1 ++ x :: l2) (x :: y :: l3 ++ l4)) as P1.
    { rewrite <- Permutation_middle. apply perm_skip. rewrite E. now rewrite <- Permutation_middle. }
    rewrite (zsum_perm _ _ _ P1) in H. cbn in H.
    pose proof (zsum_nonneg f (l3 ++ l4)) as N. unfold zsum in N. specialize (N ltac:(intros z Hz; apply H01; apply (Permutation_in _ (Permutation_sym P1)); right; right; easy)). lia.
Qed.

Section Real.
  Variable points : list (vec Rnum).
  Variable orig : pt * pt * pt.
  Variables (ctr : pt) (r : R).
  Hypothesis Hsuper : super ctr r orig.
  Hypothesis Hr : 1 <= r.
  Hypothesis Hin : forall p, In p points -> dist2 p ctr <= (r - 1) * (r - 1).
  Notation n := (length points).
  Notation P := (pos Rnum points orig).
  Notation o a b c := (orient (P a) (P b) (P c)).
  Notation L := (run Rnum points orig n).
  Notation T := (Tri points orig n).
  Notation hull := (hull points).

  Lemma I : Inv P hull (V points n) T.
  Proof. now apply (Inv_run points orig ctr r). Qed.

  (** The positively oriented version of a triple. *)
  Definition opos (t : tri) : tri := let '(a, b, c) := t in if Rlt_dec 0 (o a b c) then (a, b, c) else (a, c, b).
  Definition dedges (t : tri) : list (nat * nat) := let '(a, b, c) := opos t in [(a, b); (b, c); (c, a)].

  Lemma L_Tri a b c : In (a, b, c) L -> T a b c.
  Proof.
    intros H. pose proof (run_ok Rnum points orig n (le_n _)) as G. rewrite Forall_forall in G. pose proof (G _ H) as [Hs _].
    pose proof (sort3_id _ Hs) as E. cbn in Hs. split; [unfold distinct3; lia|]. now rewrite E.
  Qed.
  Lemma opos_spec t : In t L -> let '(a, b, c) := opos t in T a b c /\ 0 < o a b c /\ t = sort3 a b c.
  Proof.
    intros H. pose proof (run_ok Rnum points orig n (le_n _)) as G. rewrite Forall_forall in G. pose proof (G _ H) as [Hs _].
    pose proof (sort3_id _ Hs) as E. destruct t as [[a b] c]. pose proof (L_Tri _ _ _ H) as Ht. unfold opos. destruct (Rlt_dec 0 (o a b c)) as [Ho|Ho].
    - auto.
    - assert (T a c b) as Ht' by now apply Tri_swap, Tri_rot, Tri_rot. split; [easy|]. pose proof (i_nd P hull _ _ I a b c Ht).
      split; [rewrite orient_swap2; lra|]. destruct Ht' as [D _]. rewrite <- E. unfold distinct3 in D.
      rewrite (sort3_swap c a b) by intuition. symmetry. rewrite <- (sort3_rot a b c) by intuition. rewrite <- (sort3_rot b c a) by intuition. reflexivity.
  Qed.

  Lemma in_dedges x y : In (x, y) (flat_map dedges L) <-> exists z, T x y z /\ 0 < o x y z.
  Proof.
    rewrite in_flat_map. split.
    - intros (t & Ht & He). pose proof (opos_spec t Ht) as G. unfold dedges in He. destruct (opos t) as [[a b] c]. destruct G as (G1 & G2 & _).
      destruct He as [E|[E|[E|[]]]]; injection E as <- <-.
      + exists c. auto.
      + exists a. split; [now apply Tri_rot|now rewrite orient_rot].
      + exists b. split; [now apply Tri_rot, Tri_rot|now rewrite <- orient_rot].
    - intros (z & Hz & Ho). exists (sort3 x y z). split; [apply Hz|]. pose proof (opos_spec (sort3 x y z) (proj2 Hz)) as G.
      unfold dedges. destruct (opos (sort3 x y z)) as [[a b] c]. destruct G as (G1 & G2 & G3).
      assert (forall v, (v = x \/ v = y \/ v = z) <-> (v = a \/ v = b \/ v = c)) as Gs.
      { destruct Hz as [D _], G1 as [D' _]. apply sort3_eq; try apply D; try apply D'. easy. }
      pose proof (proj1 (Gs x) ltac:(auto)) as Hx. pose proof (proj1 (Gs y) ltac:(auto)) as Hy. pose proof (proj1 (Gs z) ltac:(auto)) as Hzz.
      destruct Hz as [D _], G1 as [D' _]. unfold distinct3 in *.
      assert (o b c a = o a b c) as E1 by apply orient_rot. assert (o c a b = o a b c) as E2 by (now rewrite orient_rot, orient_rot).
      assert (o b a c = - o a b c) as E3 by apply orient_swap. assert (o a c b = - o a b c) as E4 by apply orient_swap2.
      assert (o c b a = - o a b c) as E5 by (rewrite orient_swap2, E2; reflexivity).
      destruct Hx as [->|[->| ->]]; destruct Hy as [->|[->| ->]]; destruct Hzz as [->|[->| ->]]; try (exfalso; tauto); cbn; auto; exfalso; lra.
  Qed.

  Lemma NoDup_app' {A} (l1 l2 : list A) : NoDup l1 -> NoDup l2 -> (forall x, In x l1 -> ~ In x l2) -> NoDup (l1 ++ l2).
  Proof.
    induction l1 as [|y l1 IH]; intros H1 H2 Hd; cbn; [easy|]. inversion H1; subst. constructor.
    - rewrite in_app_iff. intros [H|H]; [easy|]. apply (Hd y); [now left|easy].
    - apply IH; auto. intros x Hx. apply Hd. now right.
  Qed.

  Lemma NoDup_dedges : NoDup (flat_map dedges L).
  Proof.
    assert (forall l, NoDup l -> incl l L -> NoDup (flat_map dedges l)) as G.
    { induction l as [|t l IH]; intros Hnd Hi; cbn; [constructor|]. inversion Hnd as [|? ? Hnt Hnd']; subst.
      assert (In t L) as Ht by (apply Hi; now left). pose proof (opos_spec t Ht) as G.
      apply NoDup_app'.
      - unfold dedges. destruct (opos t) as [[a b] c]. destruct G as ([D _] & _ & _). unfold distinct3 in D.
        repeat constructor; cbn; intuition (try congruence).
      - apply IH; [easy|]. intros u Hu. apply Hi. now right.
      - intros [x y] He1 He2. apply in_flat_map in He2 as (u & Hu & He2).
        assert (In u L) as Hu' by (apply Hi; now right). pose proof (opos_spec u Hu') as G'. unfold dedges in *.
        destruct (opos t) as [[a b] c]. destruct (opos u) as [[a' b'] c']. destruct G as (G1 & G2 & G3), G' as (G1' & G2' & G3').
        assert (exists z, T x y z /\ 0 < o x y z /\ t = sort3 x y z) as (z & Z1 & Z2 & Z3).
        { pose proof G1 as [D _]. unfold distinct3 in D. destruct He1 as [E|[E|[E|[]]]]; injection E as <- <-.
          - exists c. auto.
          - exists a. split; [now apply Tri_rot|]. split; [now rewrite orient_rot|]. rewrite sort3_rot by intuition. easy.
          - exists b. split; [now apply Tri_rot, Tri_rot|]. split; [now rewrite <- orient_rot|]. rewrite <- sort3_rot by intuition. easy. }
        assert (exists z, T x y z /\ 0 < o x y z /\ u = sort3 x y z) as (z' & Z1' & Z2' & Z3').
        { pose proof G1' as [D _]. unfold distinct3 in D. destruct He2 as [E|[E|[E|[]]]]; injection E as <- <-.
          - exists c'. auto.
          - exists a'. split; [now apply Tri_rot|]. split; [now rewrite orient_rot|]. rewrite sort3_rot by intuition. easy.
          - exists b'. split; [now apply Tri_rot, Tri_rot|]. split; [now rewrite <- orient_rot|]. rewrite <- sort3_rot by intuition. easy. }
        assert (z = z') as -> by now apply (i_uniq P hull _ _ I x y). apply Hnt. rewrite Z3, <- Z3'. exact Hu. }
    apply G; [apply run_NoDup; lia|]. intros x Hx. exact Hx.
  Qed.

  Definition hulls : list (nat * nat) := [(n, n + 2); (n + 2, n + 1); (n + 1, n)]%nat.
  Definition hullb (e : nat * nat) : bool := existsb (fun h => andb (fst h =? fst e)%nat (snd h =? snd e)%nat) hulls.
  Lemma hullb_spec e : hullb e = true <-> hull (fst e) (snd e).
  Proof.
    unfold hullb, GeomProofs5.hull, hulls. cbn [existsb fst snd]. rewrite !Bool.orb_true_iff, !Bool.andb_true_iff, !Nat.eqb_eq. split.
    - intros [[H1 H2]|[[H1 H2]|[[H1 H2]|H]]]; [lia..|discriminate].
    - lia.
  Qed.

  Lemma sum_hull (g : nat -> nat -> Z) : (forall x y, g y x = (- g x y)%Z) ->
    zsum (fun e => g (fst e) (snd e)) (flat_map dedges L) = zsum (fun e => g (fst e) (snd e)) hulls.
  Proof.
    intros Hg. set (E := flat_map dedges L). pose proof NoDup_dedges as HE. fold E in HE.
    assert (Permutation E (filter hullb E ++ filter (fun e => negb (hullb e)) E)) as PE.
    { generalize E. clear. intros E. induction E as [|e E IH]; cbn [filter app]; [constructor|]. destruct (hullb e); cbn [negb filter app]; [apply perm_skip, IH|].
      rewrite <- Permutation_middle. apply perm_skip, IH. }
    rewrite (zsum_perm _ _ _ PE), zsum_app.
    assert (Permutation (filter hullb E) hulls) as PH.
    { apply NoDup_Permutation; [now apply NoDup_filter| |].
      - unfold hulls. repeat constructor; cbn; intuition (try match goal with H : _ = _ |- _ => injection H; lia end).
      - intros [x y]. rewrite filter_In, hullb_spec. cbn [fst snd]. unfold E. rewrite in_dedges. split.
        + intros [_ [[-> ->]|[[-> ->]|[-> ->]]]]; cbn; auto.
        + intros H. assert (hull x y) as Hh.
          { unfold GeomProofs5.hull. cbn in H. destruct H as [H|[H|[H|[]]]]; injection H as <- <-; auto. }
          split; [|easy]. destruct (i_cov P hull _ _ I x y Hh) as (z & Hz). exists z. easy. }
    rewrite (zsum_perm _ _ _ PH).
    enough (zsum (fun e => g (fst e) (snd e)) (filter (fun e => negb (hullb e)) E) = 0%Z) by lia.
    set (E' := filter (fun e => negb (hullb e)) E). set (rev := fun e : nat * nat => (snd e, fst e)).
    assert (Permutation (map rev E') E') as PR.
    { assert (forall x y, In (x, y) E' -> In (y, x) E') as Hrev.
      { intros x y H. apply filter_In in H as [H Hh]. apply Bool.negb_true_iff, Bool.not_true_iff_false in Hh. rewrite hullb_spec in Hh. cbn [fst snd] in Hh.
        unfold E in H. apply in_dedges in H as (z & Hz & Ho). apply filter_In. split.
        - destruct (i_pair P hull _ _ I x y z Hz Ho) as [Hc|(d & Hd & Hod)]; [easy|]. apply in_dedges. exists d. split; [now apply Tri_swap|]. rewrite orient_swap. lra.
        - apply Bool.negb_true_iff, Bool.not_true_iff_false. rewrite hullb_spec. cbn [fst snd]. intros Hh'.
          pose proof (hull_V points orig ctr r Hsuper Hr Hin n y x z Hh' (le_n _)) as Hz'. rewrite orient_swap in Hz'.
          assert (V points n z) as Hv by (apply Tri_rot, Tri_rot in Hz; now apply Tri_V in Hz). specialize (Hz' Hv). lra. }
      apply NoDup_Permutation.
      - apply FinFun.Injective_map_NoDup; [|now apply NoDup_filter]. intros [a b] [c d] H. unfold rev in H. cbn in H. congruence.
      - now apply NoDup_filter.
      - intros [x y]. rewrite in_map_iff. split.
        + intros ([a b] & H & Hab). unfold rev in H. cbn in H. injection H as <- <-. now apply Hrev.
        + intros H. exists (y, x). split; [reflexivity|]. now apply Hrev. }
    pose proof (zsum_perm (fun e => g (fst e) (snd e)) _ _ PR) as S1. rewrite zsum_map in S1.
    rewrite (zsum_ext _ (fun e => (- g (fst e) (snd e))%Z)) in S1.
    2:{ intros [a b] _. unfold rev. cbn [fst snd]. apply Hg. }
    rewrite zsum_opp in S1. lia.
  Qed.

  (** [x] is in general position: not on a line through two vertices of a triangle, not on their verticals. *)
  Definition generic (x : pt) : Prop :=
    (forall a b c, T a b c -> fst (P a) <> fst x /\ orient (P a) (P b) x <> 0) /\
    (forall a, (n <= a < n + 3)%nat -> fst (P a) <> fst x) /\ (forall a b, hull a b -> orient (P a) (P b) x <> 0).

  Definition inZ (x : pt) (t : tri) : Z := let '(a, b, c) := opos t in insideb (P a) (P b) (P c) x.

  Lemma inZ_1 x t : In t L -> (inZ x t = 1%Z <-> let '(a, b, c) := t in in_triangle (P a) (P b) (P c) x).
  Proof.
    intros Ht. pose proof (opos_spec t Ht) as G. unfold inZ. destruct t as [[a b] c]. unfold opos in *.
    destruct (Rlt_dec 0 (o a b c)) as [Ho|Ho]; destruct G as (_ & G & _).
    - rewrite insideb_1. now rewrite in_triangle_orient.
    - rewrite insideb_1, <- in_triangle_orient by easy. split; apply in_triangle_swap.
  Qed.

  Theorem count_one x : generic x -> (forall a b, hull a b -> 0 < orient (P a) (P b) x) -> zsum (inZ x) L = 1%Z.
  Proof.
    intros (G1 & G2 & G3) Hh.
    assert (zsum (inZ x) L = zsum (fun e => phi x (P (fst e)) (P (snd e))) (flat_map dedges L)) as ->.
    { rewrite zsum_flat. apply zsum_ext. intros t Ht. pose proof (opos_spec t Ht) as Gt. unfold inZ, dedges. destruct (opos t) as [[a b] c].
      destruct Gt as (Ht' & Ho & _). cbn. pose proof (Tri_rot _ _ _ _ _ _ Ht') as R1. pose proof (Tri_rot _ _ _ _ _ _ R1) as R2.
      rewrite <- (crossing (P a) (P b) (P c) x); try easy; try apply (G1 _ _ _ Ht'); try apply (G1 _ _ _ R1); try apply (G1 _ _ _ R2). lia. }
    rewrite (sum_hull (fun a b => phi x (P a) (P b))); [|intros; apply phi_anti].
    unfold hulls. cbn. 
    assert (hull n (n + 2) /\ hull (n + 2) (n + 1) /\ hull (n + 1) n)%nat as (H1 & H2 & H3) by (unfold GeomProofs5.hull; lia).
    rewrite Z.add_0_r, Z.add_assoc, crossing; try (apply G2; lia); try (now apply G3).
    - apply insideb_1. auto.
    - assert (exists p1 p2 p3, orig = (p1, p2, p3) /\ P n = p1 /\ P (n + 1)%nat = p2 /\ P (n + 2)%nat = p3) as (p1 & p2 & p3 & E & -> & -> & ->) by (now apply (P_orig points orig ctr r)).
      pose proof Hsuper as Hs. rewrite E in Hs. now apply (super_orient ctr r).
  Qed.

  (** Perturbation of a point. *)
  Lemma generic_near fs y : Forall (fun f => 0 < ev f y) fs -> exists x, Forall (fun f => 0 < ev f x) fs /\ generic x.
  Proof.
    intros Hf. set (vs := seq 0 (n + 3)).
    set (hs := map (fun a => fst_aff (fst (P a))) vs ++ map (fun e => orient_aff (P (fst e)) (P (snd e))) (filter (fun e => if Req_EM_T (fst (P (fst e))) (fst (P (snd e))) then if Req_EM_T (snd (P (fst e))) (snd (P (snd e))) then false else true else true) (list_prod vs vs))).
    assert (forall a b, fst (P a) = fst (P b) -> snd (P a) = snd (P b) -> P a = P b) as Hpe.
    { intros a b E1 E2. destruct (P a), (P b). cbn in *. congruence. }
    destruct (generic_point hs fs y) as (x & Hx1 & Hx2); [|easy|].
    { apply Forall_forall. intros h Hh. apply in_app_iff in Hh as [Hh|Hh]; apply in_map_iff in Hh as (e & <- & He).
      - apply fst_nonconst.
      - apply filter_In in He as [_ He]. apply orient_nonconst. intros E. rewrite E in He.
        destruct (Req_EM_T _ _); [|congruence]. destruct (Req_EM_T _ _); congruence. }
    exists x. split; [easy|]. rewrite Forall_forall in Hx2.
    assert (forall a, (a < n + 3)%nat -> fst (P a) <> fst x) as F1.
    { intros a Ha E. apply (Hx2 (fst_aff (fst (P a)))); [|rewrite ev_fst; lra]. apply in_app_iff. left. apply in_map_iff. exists a. split; [easy|]. apply in_seq. lia. }
    assert (forall a b, (a < n + 3)%nat -> (b < n + 3)%nat -> P a <> P b -> orient (P a) (P b) x <> 0) as F2.
    { intros a b Ha Hb Hn E. apply (Hx2 (orient_aff (P a) (P b))); [|rewrite ev_orient; lra]. apply in_app_iff. right. apply in_map_iff. exists (a, b). split; [easy|].
      apply filter_In. split; [apply in_prod; apply in_seq; lia|]. cbn [fst snd]. destruct (Req_EM_T _ _); [|easy]. destruct (Req_EM_T _ _); [|easy]. exfalso. auto. }
    assert (forall a b c, T a b c -> (a < n + 3)%nat /\ (b < n + 3)%nat /\ P a <> P b) as F3.
    { intros a b c Ht. pose proof (i_nd P hull _ _ I a b c Ht) as Hn. apply orient_neq in Hn as (Hn & _ & _).
      pose proof (Tri_V _ _ _ _ _ _ (le_n _) Ht) as V1. pose proof (Tri_V _ _ _ _ _ _ (le_n _) (Tri_rot _ _ _ _ _ _ Ht)) as V2. unfold V in *. repeat split; [lia|lia|easy]. }
    repeat split.
    - destruct (F3 _ _ _ H) as (A & B & C). now apply F1.
    - destruct (F3 _ _ _ H) as (A & B & C). now apply F2.
    - intros a Ha. apply F1. lia.
    - intros a b Hh. destruct (i_cov P hull _ _ I a b Hh) as (c & Hc & _). destruct (F3 _ _ _ Hc) as (A & B & C). now apply F2.
  Qed.

  (** Affine functions positive exactly inside a triangle of the triangulation. *)
  Definition taff (t : tri) : list aff := let '(a, b, c) := opos t in [orient_aff (P a) (P b); orient_aff (P b) (P c); orient_aff (P c) (P a)].
  Lemma taff_spec x t : In t L -> (Forall (fun f => 0 < ev f x) (taff t) <-> let '(a, b, c) := t in in_triangle (P a) (P b) (P c) x).
  Proof.
    intros Ht. rewrite <- inZ_1 by easy. unfold taff, inZ. destruct (opos t) as [[a b] c]. rewrite insideb_1. rewrite !Forall_cons_iff, !ev_orient.
    intuition constructor.
  Qed.

  Lemma inside_hull x t : In t L -> (let '(a, b, c) := t in in_triangle (P a) (P b) (P c) x) -> forall a b, hull a b -> 0 < orient (P a) (P b) x.
  Proof.
    intros Ht Hx a b Hh. destruct t as [[u v] w]. pose proof (L_Tri _ _ _ Ht) as T1. pose proof (Tri_rot _ _ _ _ _ _ T1) as T2. pose proof (Tri_rot _ _ _ _ _ _ T2) as T3.
    pose proof (hull_V points orig ctr r Hsuper Hr Hin n a b) as HV.
    pose proof (HV u Hh (le_n _) (Tri_V _ _ _ _ _ _ (le_n _) T1)) as H1. pose proof (HV v Hh (le_n _) (Tri_V _ _ _ _ _ _ (le_n _) T2)) as H2.
    pose proof (HV w Hh (le_n _) (Tri_V _ _ _ _ _ _ (le_n _) T3)) as H3.
    destruct Hx as (al & be & ga & Ha & Hb & Hc & Hs & E0 & E1).
    assert (orient (P a) (P b) x = al * o a b u + be * o a b v + ga * o a b w) as ->.
    { unfold orient. rewrite E0, E1. replace al with (1 - be - ga) by lra. ring. }
    assert (0 <= al * o a b u /\ 0 <= be * o a b v /\ 0 <= ga * o a b w) as (N1 & N2 & N3) by (repeat split; apply Rmult_le_pos; lra).
    apply Rnot_le_lt. intros Hle.
    assert (al * o a b u = 0) as Z1 by lra. assert (be * o a b v = 0) as Z2 by lra. assert (ga * o a b w = 0) as Z3 by lra.
    apply Rmult_integral in Z1 as [Z1|Z1]; [lra|]. apply Rmult_integral in Z2 as [Z2|Z2]; [lra|]. apply Rmult_integral in Z3 as [Z3|Z3]; [lra|].
    assert (P a <> P b) as Hab.
    { destruct (i_cov P hull _ _ I a b Hh) as (c & Hc' & _). apply (i_nd P hull _ _ I), orient_neq in Hc'. easy. }
    pose proof (i_nd P hull _ _ I u v w T1) as Hn. apply Hn. clear - Z1 Z2 Z3 Hab.
    destruct (P a) as [a0 a1], (P b) as [b0 b1], (P u) as [u0 u1], (P v) as [v0 v1], (P w) as [w0 w1]. unfold orient in *. cbn [fst snd] in *.
    assert ((b0 - a0) * ((v0 - u0) * (w1 - u1) - (v1 - u1) * (w0 - u0)) = 0) as K1.
    { assert (forall x0 x1, (b0 - a0) * (x1 - a1) = (b1 - a1) * (x0 - a0) + ((b0 - a0) * (x1 - a1) - (b1 - a1) * (x0 - a0))) as K by (intros; ring).
      transitivity ((v0 - u0) * ((b0 - a0) * (w1 - a1) - (b0 - a0) * (u1 - a1)) - (w0 - u0) * ((b0 - a0) * (v1 - a1) - (b0 - a0) * (u1 - a1))); [ring|].
      rewrite (K u0 u1), (K v0 v1), (K w0 w1), Z1, Z2, Z3. ring. }
    assert ((b1 - a1) * ((v0 - u0) * (w1 - u1) - (v1 - u1) * (w0 - u0)) = 0) as K2.
    { assert (forall x0 x1, (b1 - a1) * (x0 - a0) = (b0 - a0) * (x1 - a1) - ((b0 - a0) * (x1 - a1) - (b1 - a1) * (x0 - a0))) as K by (intros; ring).
      transitivity (((b1 - a1) * (v0 - a0) - (b1 - a1) * (u0 - a0)) * (w1 - u1) - (v1 - u1) * ((b1 - a1) * (w0 - a0) - (b1 - a1) * (u0 - a0))); [ring|].
      rewrite (K u0 u1), (K v0 v1), (K w0 w1), Z1, Z2, Z3. ring. }
    apply Rmult_integral in K1 as [K1|K1]; [|easy]. apply Rmult_integral in K2 as [K2|K2]; [|easy]. exfalso. apply Hab. f_equal; lra.
  Qed.

  Theorem interiors_disjoint t t' x : In t L -> In t' L -> (let '(a, b, c) := t in in_triangle (P a) (P b) (P c) x) ->
    (let '(a, b, c) := t' in in_triangle (P a) (P b) (P c) x) -> t = t'.
  Proof.
    intros Ht Ht' Hx Hx'. destruct (generic_near (taff t ++ taff t') x) as (y & Hy & Hg).
    { apply Forall_app. split; now apply taff_spec. }
    apply Forall_app in Hy as [Hy Hy']. apply taff_spec in Hy, Hy'; try easy.
    pose proof (count_one y Hg (inside_hull y t Ht Hy)) as H1.
    apply zsum_unique in H1 as [_ H1]; [|intros u _; unfold inZ; destruct (opos u) as [[? ?] ?]; apply insideb_01].
    apply H1; auto; [apply run_NoDup; lia|now apply inZ_1|now apply inZ_1].
  Qed.

  (** A triangle of input points with no other vertex in its closed circle is found. *)
  Theorem complete a b c : (a < n)%nat -> (b < n)%nat -> (c < n)%nat -> o a b c <> 0 ->
    (forall q, (q < n + 3)%nat -> q <> a -> q <> b -> q <> c -> ~ in_closed_circle (P a) (P b) (P c) (P q)) -> In (sort3 a b c) L.
  Proof.
    intros Ha Hb Hc Hn He.
    assert (forall a b c, (a < n)%nat -> (b < n)%nat -> (c < n)%nat -> 0 < o a b c ->
      (forall q, (q < n + 3)%nat -> q <> a -> q <> b -> q <> c -> ~ in_closed_circle (P a) (P b) (P c) (P q)) -> In (sort3 a b c) L) as G.
    { clear a b c Ha Hb Hc Hn He. intros a b c Ha Hb Hc Ho He.
      assert (distinct3 a b c) as D. { unfold distinct3. repeat split; intros ->; unfold orient in Ho; lra. }
      set (y := ((fst (P a) + fst (P b) + fst (P c)) / 3, (snd (P a) + snd (P b) + snd (P c)) / 3)).
      assert (in_triangle (P a) (P b) (P c) y) as Hy.
      { apply in_triangle_centroid. }
      set (fs := [orient_aff (P a) (P b); orient_aff (P b) (P c); orient_aff (P c) (P a)]).
      assert (forall z, Forall (fun f => 0 < ev f z) fs <-> in_triangle (P a) (P b) (P c) z) as Hfs.
      { intros z. rewrite in_triangle_orient by easy. unfold fs. rewrite !Forall_cons_iff, !ev_orient. intuition constructor. }
      destruct (generic_near fs y (proj2 (Hfs y) Hy)) as (x & Hx & Hg). apply Hfs in Hx.
      assert (forall u v, hull u v -> 0 < orient (P u) (P v) x) as Hh.
      { intros u v Huv. pose proof (hull_pos points orig ctr r Hsuper Hr Hin u v) as HP.
        destruct Hx as (al & be & ga & Hal & Hbe & Hga & Hs & E0 & E1).
        assert (orient (P u) (P v) x = al * o u v a + be * o u v b + ga * o u v c) as ->.
        { unfold orient. rewrite E0, E1. replace al with (1 - be - ga) by lra. ring. }
        pose proof (HP a Huv Ha). pose proof (HP b Huv Hb). pose proof (HP c Huv Hc). nra. }
      pose proof (count_one x Hg Hh) as H1.
      apply zsum_unique in H1 as [(t & Ht & Ht1) _]; [|intros u _; unfold inZ; destruct (opos u) as [[? ?] ?]; apply insideb_01].
      apply inZ_1 in Ht1; [|easy]. pose proof (opos_spec t Ht) as Gt.
      assert (let '(a', b', c') := opos t in in_triangle (P a') (P b') (P c') x) as Hxt.
      { destruct t as [[u v] w]. unfold opos. destruct (Rlt_dec _ _); [easy|now apply in_triangle_swap]. }
      destruct (opos t) as [[u v] w]. destruct Gt as (Tt & Ot & ->).
      assert (o a b c <> 0) as Hn by lra. assert (o u v w <> 0) as Hn' by lra.
      destruct (centre_exists _ _ _ Hn) as (ce & Hce). destruct (centre_exists _ _ _ Hn') as (ce' & Hce').
      assert (forall q, (q < n + 3)%nat -> dist2 ce (P a) <= dist2 ce (P q) /\ (dist2 ce (P q) = dist2 ce (P a) -> q = a \/ q = b \/ q = c)) as Hout.
      { intros q Hq. destruct (Nat.eq_dec q a) as [->|Q1]; [split; [lra|auto]|]. destruct (Nat.eq_dec q b) as [->|Q2]; [split; [|auto]; destruct Hce; lra|].
        destruct (Nat.eq_dec q c) as [->|Q3]; [split; [|auto]; destruct Hce; lra|].
        assert (dist2 ce (P a) < dist2 ce (P q)) as Hlt. { apply Rnot_le_lt. intros Hle. apply (He q Hq Q1 Q2 Q3). exists ce. split; easy. }
        split; lra. }
      assert (forall q, (q < n)%nat -> dist2 ce' (P u) <= dist2 ce' (P q)) as Hout'.
      { intros q Hq. pose proof (i_del P hull _ _ I u v w q Tt Ot ltac:(left; easy)) as Hd. pose proof (centre_incirc ce' _ _ _ (P q) Hce') as E. 
        apply Rnot_lt_le. intros Hlt. assert (0 < o u v w * (dist2 ce' (P u) - dist2 ce' (P q))) by (apply Rmult_lt_0_compat; lra). lra. }
      assert (forall z, z = u \/ z = v \/ z = w -> (z < n + 3)%nat) as Hz.
      { pose proof (Tri_rot _ _ _ _ _ _ Tt) as T2. pose proof (Tri_rot _ _ _ _ _ _ T2) as T3.
        apply Tri_V in Tt, T2, T3; try lia. unfold V in *. intros z [->|[->| ->]]; lia. }
      assert (forall p, p = P u \/ p = P v \/ p = P w -> dist2 ce p = dist2 ce (P a)) as Hall.
      { apply (two_circles ce ce' (P a) (P b) (P c) (P u) (P v) (P w) x Hce Hce' Hx Hxt).
        - intros p [->|[->| ->]]; now apply Hout'.
        - intros p [->|[->| ->]]; apply Hout; auto. }
      assert (u = a \/ u = b \/ u = c) as Hu by (apply Hout; auto). assert (v = a \/ v = b \/ v = c) as Hv by (apply Hout; auto).
      assert (w = a \/ w = b \/ w = c) as Hw by (apply Hout; auto).
      replace (sort3 a b c) with (sort3 u v w); [easy|]. pose proof Tt as [D' _]. unfold distinct3 in *.
      apply sort3_eq; try tauto. intros z. clear - Hu Hv Hw D D'.
      destruct Hu as [->|[->| ->]], Hv as [->|[->| ->]], Hw as [->|[->| ->]]; tauto. }
    destruct (Rtotal_order 0 (o a b c)) as [H|[H|H]]; [now apply G|lra|].
    assert (distinct3 a b c) as D. { unfold distinct3. repeat split; intros ->; unfold orient in H; lra. }
    rewrite <- sort3_swap by apply D. apply G; auto; [rewrite orient_swap; lra|]. intros q Hq Q1 Q2 Q3. intros (ce & [C1 C2] & C3).
    apply (He q Hq Q2 Q1 Q3). exists ce. split; [split; lra|lra].
  Qed.
End Real.
