(** Points in general position, interior of a triangle, and the crossing count of a triangle. *)
From Coq Require Import Reals List Arith Lia Lra Psatz ZArith Permutation.
From Verif Require Import GeomSpec GeomProofs2 GeomProofs3.
Import ListNotations.
Open Scope R_scope.

(** * Interior of a triangle *)
Lemma in_triangle_orient a b c x : 0 < orient a b c ->
  (in_triangle a b c x <-> 0 < orient a b x /\ 0 < orient b c x /\ 0 < orient c a x).
Proof.
  intros HD. split.
  - intros (u & v & w & Hu & Hv & Hw & Hs & E0 & E1).
    assert (orient a b x = w * orient a b c) as ->.
    { unfold orient. rewrite E0, E1. replace u with (1 - v - w) by lra. ring. }
    assert (orient b c x = u * orient a b c) as ->.
    { unfold orient. rewrite E0, E1. replace v with (1 - u - w) by lra. ring. }
    assert (orient c a x = v * orient a b c) as ->.
    { unfold orient. rewrite E0, E1. replace w with (1 - u - v) by lra. ring. }
    repeat split; apply Rmult_lt_0_compat; easy.
  - intros (H1 & H2 & H3). set (D := orient a b c) in *.
    assert (orient a b x + orient b c x + orient c a x = D) as S by (unfold D, orient; ring).
    exists (orient b c x / D), (orient c a x / D), (orient a b x / D).
    assert (forall t, 0 < t -> 0 < t / D) as Hd by (intros; apply Rdiv_lt_0_compat; easy).
    repeat split; auto.
    + transitivity ((orient a b x + orient b c x + orient c a x) / D); [field; lra|]. rewrite S. field. lra.
    + transitivity (D * fst x / D); [field; lra|]. transitivity ((orient b c x * fst a + orient c a x * fst b + orient a b x * fst c) / D); [|field; lra].
      f_equal. unfold D, orient. ring.
    + transitivity (D * snd x / D); [field; lra|]. transitivity ((orient b c x * snd a + orient c a x * snd b + orient a b x * snd c) / D); [|field; lra].
      f_equal. unfold D, orient. ring.
Qed.
Lemma in_triangle_swap a b c x : in_triangle a b c x -> in_triangle a c b x.
Proof. intros (u & v & w & H). exists u, w, v. repeat split; try lra; apply H || (destruct H as (_ & _ & _ & _ & H1 & H2); lra). Qed.

Lemma in_triangle_centroid a b c : in_triangle a b c ((fst a + fst b + fst c) / 3, (snd a + snd b + snd c) / 3).
Proof. exists (1/3), (1/3), (1/3). cbn [fst snd]. repeat split; lra. Qed.

(** * Crossings of the vertical ray above [x] *)
Definition psi (x a b : pt) : Z :=
  if Rlt_dec (fst b) (fst x) then if Rlt_dec (fst x) (fst a) then if Rlt_dec 0 (orient a b x) then 1%Z else 0%Z else 0%Z else 0%Z.
Definition phi (x a b : pt) : Z := (psi x a b - psi x b a)%Z.
Lemma phi_anti x a b : phi x b a = (- phi x a b)%Z.
Proof. unfold phi. lia. Qed.

Definition insideb (a b c x : pt) : Z :=
  if Rlt_dec 0 (orient a b x) then if Rlt_dec 0 (orient b c x) then if Rlt_dec 0 (orient c a x) then 1%Z else 0%Z else 0%Z else 0%Z.

Lemma psi_val x a b : fst a <> fst x -> fst b <> fst x -> orient a b x <> 0 ->
  phi x a b = if Rlt_dec (fst b) (fst x) then if Rlt_dec (fst a) (fst x) then 0%Z else if Rlt_dec 0 (orient a b x) then 1%Z else 0%Z
              else if Rlt_dec (fst a) (fst x) then if Rlt_dec 0 (orient a b x) then 0%Z else (-1)%Z else 0%Z.
Proof.
  intros Ha Hb Ho. unfold phi, psi. rewrite (orient_swap a b x). set (C := orient a b x) in *. clearbody C.
  repeat match goal with |- context [Rlt_dec ?p ?q] => destruct (Rlt_dec p q) end; try reflexivity; exfalso; lra.
Qed.

Lemma crossing a b c x : 0 < orient a b c -> fst a <> fst x -> fst b <> fst x -> fst c <> fst x ->
  orient a b x <> 0 -> orient b c x <> 0 -> orient c a x <> 0 ->
  (phi x a b + phi x b c + phi x c a)%Z = insideb a b c x.
Proof.
  intros HD Ha Hb Hc HC HA HB. rewrite !psi_val by auto. unfold insideb.
  assert (orient a b x + orient b c x + orient c a x = orient a b c) as S by (unfold orient; ring).
  assert ((fst a - fst x) * orient b c x + (fst b - fst x) * orient c a x + (fst c - fst x) * orient a b x = 0) as S2 by (unfold orient; ring).
  set (C := orient a b x) in *. set (A := orient b c x) in *. set (B := orient c a x) in *. clearbody A B C.
  set (al := fst a - fst x) in *. set (be := fst b - fst x) in *. set (ga := fst c - fst x) in *.
  assert (forall t, Rlt t (fst x) -> t - fst x < 0) as M by (intros; lra). 
  assert (forall t, t <> fst x -> ~ Rlt t (fst x) -> 0 < t - fst x) as M2 by (intros; lra). 
  destruct (Rlt_dec (fst a) (fst x)) as [La|La]; destruct (Rlt_dec (fst b) (fst x)) as [Lb|Lb]; destruct (Rlt_dec (fst c) (fst x)) as [Lc|Lc];
  destruct (Rlt_dec 0 C); destruct (Rlt_dec 0 A); destruct (Rlt_dec 0 B); try reflexivity; exfalso;
  first [apply M in La; fold al in La | apply M2 in La; [fold al in La|exact Ha]];
  first [apply M in Lb; fold be in Lb | apply M2 in Lb; [fold be in Lb|exact Hb]];
  first [apply M in Lc; fold ga in Lc | apply M2 in Lc; [fold ga in Lc|exact Hc]];
  clearbody al be ga; nra.
Qed.

Lemma insideb_01 a b c x : insideb a b c x = 0%Z \/ insideb a b c x = 1%Z.
Proof. unfold insideb. repeat match goal with |- context [Rlt_dec ?p ?q] => destruct (Rlt_dec p q) end; auto. Qed.
Lemma insideb_1 a b c x : insideb a b c x = 1%Z <-> 0 < orient a b x /\ 0 < orient b c x /\ 0 < orient c a x.
Proof. unfold insideb. repeat match goal with |- context [Rlt_dec ?p ?q] => destruct (Rlt_dec p q) end; split; try tauto; intros; lia. Qed.

(** * General position *)
Definition aff := (R * R * R)%type.
Definition ev (f : aff) (x : pt) : R := let '(u, v, w) := f in u * fst x + v * snd x + w.
Definition nonconst (f : aff) : Prop := let '(u, v, _) := f in u <> 0 \/ v <> 0.
Definition aneg (f : aff) : aff := let '(u, v, w) := f in (- u, - v, - w).
Lemma ev_aneg f x : ev (aneg f) x = - ev f x.
Proof. destruct f as [[u v] w]. cbn. ring. Qed.
Definition shift (y d : pt) (t : R) : pt := (fst y + t * fst d, snd y + t * snd d).

Lemma small_step fs y d : Forall (fun f => 0 < ev f y) fs -> exists e, 0 < e /\ forall t, 0 <= t <= e -> Forall (fun f => 0 < ev f (shift y d t)) fs.
Proof.
  induction 1 as [|f fs Hf _ (e & He & IH)]; [exists 1; split; [lra|auto]|].
  destruct f as [[u v] w]. cbn [ev] in Hf. set (m := u * fst d + v * snd d). set (F := u * fst y + v * snd y + w) in *.
  set (e2 := F / (Rabs m + 1)). assert (0 < Rabs m + 1) as Hm by (pose proof (Rabs_pos m); lra).
  assert (0 < e2) as He2 by (apply Rdiv_lt_0_compat; easy).
  exists (Rmin e e2 / 2). assert (0 < Rmin e e2) as Hmin by (apply Rmin_glb_lt; easy). split; [lra|].
  intros t Ht. pose proof (Rmin_l e e2). pose proof (Rmin_r e e2). constructor; [|apply IH; lra].
  unfold shift. cbn [ev fst snd]. assert (u * (fst y + t * fst d) + v * (snd y + t * snd d) + w = F + t * m) as -> by (unfold F, m; ring).
  assert (t * (Rabs m + 1) < F).
  { apply Rlt_le_trans with (e2 * (Rabs m + 1)); [apply Rmult_lt_compat_r; lra|]. unfold e2. right. field. lra. }
  pose proof (Rle_abs (- m)) as Ha. rewrite Rabs_Ropp in Ha. assert (0 <= t) by lra. nra.
Qed.

Lemma generic_point hs : forall fs y, Forall nonconst hs -> Forall (fun f => 0 < ev f y) fs ->
  exists x, Forall (fun f => 0 < ev f x) fs /\ Forall (fun h => ev h x <> 0) hs.
Proof.
  induction hs as [|h hs IH]; intros fs y Hn Hf; [exists y; auto|]. inversion Hn as [|? ? Hh Hn']; subst.
  assert (exists y', Forall (fun f => 0 < ev f y') fs /\ ev h y' <> 0) as (y' & Hf' & Hy').
  { destruct (Req_dec (ev h y) 0) as [E|E]; [|exists y; auto].
    destruct h as [[u v] w]. destruct (small_step fs y (u, v) Hf) as (e & He & Hs). exists (shift y (u, v) e). split; [apply Hs; lra|].
    unfold shift. cbn [ev fst snd] in *. assert (u * (fst y + e * u) + v * (snd y + e * v) + w = e * (u * u + v * v)) as -> by lra.
    cbn in Hh. assert (0 < u * u + v * v) by (destruct Hh; nra). nra. }
  destruct (Rtotal_order 0 (ev h y')) as [H|[H|H]].
  - destruct (IH (h :: fs) y' Hn') as (x & Hx1 & Hx2); [constructor; auto|]. inversion Hx1; subst. exists x. split; [easy|]. constructor; [lra|easy].
  - exfalso. lra.
  - destruct (IH (aneg h :: fs) y' Hn') as (x & Hx1 & Hx2); [constructor; auto; rewrite ev_aneg; lra|]. inversion Hx1 as [|? ? Hx3]; subst.
    rewrite ev_aneg in Hx3. exists x. split; [easy|]. constructor; [lra|easy].
Qed.

Definition orient_aff (a b : pt) : aff := (- (snd b - snd a), fst b - fst a, - (fst b - fst a) * snd a + (snd b - snd a) * fst a).
Lemma ev_orient a b x : ev (orient_aff a b) x = orient a b x.
Proof. unfold orient_aff, ev, orient. ring. Qed.
Lemma orient_nonconst a b : a <> b -> nonconst (orient_aff a b).
Proof.
  intros H. cbn. destruct a as [a0 a1], b as [b0 b1]. cbn. destruct (Req_dec b0 a0) as [->|]; [|right; lra]. left. intros E. apply H. f_equal. lra.
Qed.
Definition fst_aff (c : R) : aff := (1, 0, - c).
Lemma ev_fst c x : ev (fst_aff c) x = fst x - c.
Proof. unfold fst_aff, ev. ring. Qed.
Lemma fst_nonconst c : nonconst (fst_aff c).
Proof. cbn. left. lra. Qed.

(** * Two circles *)
Lemma two_circles o o' a b c a' b' c' x :
  circumcentre o a b c -> circumcentre o' a' b' c' -> in_triangle a b c x -> in_triangle a' b' c' x ->
  (forall v, v = a \/ v = b \/ v = c -> dist2 o' a' <= dist2 o' v) -> (forall v, v = a' \/ v = b' \/ v = c' -> dist2 o a <= dist2 o v) ->
  forall v, v = a' \/ v = b' \/ v = c' -> dist2 o v = dist2 o a.
Proof.
  intros [H1 H2] [H3 H4] (u & v & w & Hu & Hv & Hw & Hs & X0 & X1) (u' & v' & w' & Hu' & Hv' & Hw' & Hs' & X0' & X1') Ho' Ho.
  set (f := fun x => (dist2 o x - dist2 o a) - (dist2 o' x - dist2 o' a')).
  assert (forall p q s (al be ga : R), al + be + ga = 1 -> fst x = al * fst p + be * fst q + ga * fst s -> snd x = al * snd p + be * snd q + ga * snd s ->
            f x = al * f p + be * f q + ga * f s) as Haff.
  { intros p q s al be ga E E0 E1. unfold f, dist2. rewrite E0, E1. replace al with (1 - be - ga) by lra. ring. }
  assert (f x = u * f a + v * f b + w * f c) as F by (apply Haff; auto).
  assert (f x = u' * f a' + v' * f b' + w' * f c') as F' by (apply Haff; auto).
  assert (f a <= 0) as La by (unfold f; specialize (Ho' a ltac:(auto)); lra).
  assert (f b <= 0) as Lb by (unfold f; specialize (Ho' b ltac:(auto)); lra).
  assert (f c <= 0) as Lc by (unfold f; specialize (Ho' c ltac:(auto)); lra).
  assert (0 <= f a') as La' by (unfold f; specialize (Ho a' ltac:(auto)); lra).
  assert (0 <= f b') as Lb' by (unfold f; specialize (Ho b' ltac:(auto)); lra).
  assert (0 <= f c') as Lc' by (unfold f; specialize (Ho c' ltac:(auto)); lra).
  assert (f x <= 0) as L by (rewrite F; nra).
  assert (0 <= u' * f a' /\ 0 <= v' * f b' /\ 0 <= w' * f c') as (N1 & N2 & N3) by (repeat split; apply Rmult_le_pos; lra).
  assert (u' * f a' = 0) as Z1 by lra. assert (v' * f b' = 0) as Z2 by lra. assert (w' * f c' = 0) as Z3 by lra.
  apply Rmult_integral in Z1 as [Z1|Z1]; [lra|]. apply Rmult_integral in Z2 as [Z2|Z2]; [lra|]. apply Rmult_integral in Z3 as [Z3|Z3]; [lra|].
  intros y [->|[->| ->]]; unfold f in *; lra.
Qed.
