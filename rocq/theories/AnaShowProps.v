(** C144: printed smooth functions. *)
From Coq Require Import String Ascii List ZArith Bool Reals Lia Lra.
From Verif Require Import PidModel AnaModel AnaProofs AnaProofs3 MvModel ShowModel ShowProofs AnaShowModel AnaShowSpec AnaShowProofs AnaShowProofs2.
Import ListNotations.
Open Scope nat_scope.
Open Scope list_scope.

(** Functions made with the operators that print alike have the same values. *)
Theorem C144_determines : forall F sf f g, f64_display F sf -> built f -> built g -> numbers_in F f -> numbers_in F g ->
  show_fn sf f = show_fn sf g -> same_values f g.
Proof.
  intros F sf f g HF Bf Bg Nf Ng E. rewrite <- (app_nil_r (show_fn sf f)), <- (app_nil_r (show_fn sf g)) in E.
  now apply (read_fn F sf HF f g [] []); try exact I; try (split; [now apply flat_built|assumption]).
Qed.
Print Assumptions C144_determines.
(** The same for any values of the type, made with its variants, in which no product is directly a factor of a product. *)
Theorem C144_determines_variants : forall F sf f g, f64_display F sf -> flat f -> flat g -> numbers_in F f -> numbers_in F g ->
  show_fn sf f = show_fn sf g -> same_values f g.
Proof.
  intros F sf f g HF Bf Bg Nf Ng E. rewrite <- (app_nil_r (show_fn sf f)), <- (app_nil_r (show_fn sf g)) in E.
  now apply (read_fn F sf HF f g [] []); try exact I; try (split; assumption).
Qed.
Print Assumptions C144_determines_variants.
(** The exact text: the i-th component is printed after its number, counted from 0, and ends its line; the first term of a sum is printed without its
    coefficient if that is 1, with a minus sign if it is -1, and the other coefficients stand in parentheses. *)
Theorem C144_text : forall sf,
  (forall G, exists lines, show_mv sf G = concat lines /\ length lines = length (mv_fns G) /\
     forall i f, nth_error (mv_fns G) i = Some f -> nth_error lines i = Some (lit "f[" ++ show_nat i ++ lit "] = " ++ show_fn sf f ++ lit "," ++ ["010"%char])) /\
  (forall c f r, exists first, show_fn sf (ASum ((c, f) :: r)) = lit "(" ++ first ++ concat (map (fun t => lit " + (" ++ sf (fst t) ++ lit ")·" ++ show_fn sf (snd t)) r) ++ lit ")" /\
     (c = 1%R -> first = show_fn sf f) /\ (c = (-1)%R -> first = lit "-" ++ show_fn sf f) /\ (c <> 1%R -> c <> (-1)%R -> first = sf c ++ lit "·" ++ show_fn sf f)).
Proof.
  intros sf. split.
  - intros G. unfold show_mv. eexists. split; [reflexivity|]. split; [rewrite map_length, combine_length, seq_length; apply Nat.min_id|].
    intros i f E. assert (L : nth_error (combine (seq 0 (length (mv_fns G))) (mv_fns G)) i = Some (i, f)).
    { assert (K : forall (l : list afn) k i f, nth_error l i = Some f -> nth_error (combine (seq k (length l)) l) i = Some (k + i, f)).
      { clear. induction l as [|x l IH]; intros k [|i] f E; cbn in *; try discriminate; [injection E as ->; rewrite Nat.add_0_r; reflexivity|]. rewrite (IH (S k) i f E). now rewrite Nat.add_succ_r. }
      exact (K _ 0 i f E). }
    rewrite nth_error_map, L. reflexivity.
  - intros c f r. exists (first_term sf (c, show_fn sf f)). split; [cbn [show_fn map show_terms fst snd]; rewrite map_map, <- app_assoc; reflexivity|]. unfold first_term. cbn [fst snd].
    replace (-1)%R with (- (1))%R by lra. split; [|split].
    + intros ->. now rewrite (proj2 (Reqb_eq 1 1) eq_refl).
    + intros ->. rewrite (proj2 (Reqb_neq (- (1)) 1)) by lra. now rewrite (proj2 (Reqb_eq (- (1)) (- (1))) eq_refl).
    + intros N1 N2. rewrite (proj2 (Reqb_neq c 1)) by exact N1. now rewrite (proj2 (Reqb_neq c (- (1)))) by exact N2.
Qed.
Print Assumptions C144_text.
(** A printed function of several components determines the number of components and the values of each. *)
Theorem C144_components : forall F sf G H, f64_display F sf -> Forall built (mv_fns G) -> Forall built (mv_fns H) ->
  Forall (numbers_in F) (mv_fns G) -> Forall (numbers_in F) (mv_fns H) ->
  show_mv sf G = show_mv sf H -> Forall2 same_values (mv_fns G) (mv_fns H).
Proof.
  intros F sf [fs d] [gs d'] HF. unfold show_mv. cbn [mv_fns]. generalize 0. revert gs. induction fs as [|f fs IH]; intros [|g gs] k Bf Bg Nf Ng E; cbn -[show_nat] in E.
  - constructor.
  - discriminate E.
  - discriminate E.
  - inversion Bf; inversion Bg; inversion Nf; inversion Ng; subst. injection E as E. rewrite <- !app_assoc in E. apply show_nat_split in E; [|reflexivity|reflexivity]. destruct E as [_ E]. cbn in E. injection E as E. rewrite <- !app_assoc in E.
    apply (read_fn F sf HF) in E; try (split; [now apply flat_built|assumption]); try (cbn; tauto). destruct E as [E V]. cbn in E. injection E as E. constructor; [exact V|]. eapply IH; eassumption.
Qed.
Print Assumptions C144_components.

(** Without that condition it is false: the square of a product and a product with a square. *)
Theorem C144_refuted_nested : exists f g x, (forall sf, show_fn sf f = show_fn sf g) /\ exists a b, eval x f = Some a /\ eval x g = Some b /\ a <> b.
Proof.
  exists (AProd [(2%Z, AProd [(1%Z, AProj 0); (1%Z, AProj 1)])]), (AProd [(1%Z, AProd [(1%Z, AProj 0); (2%Z, AProj 1)])]), [2%R; 1%R]. split; [reflexivity|].
  assert (P : forall y (e : Z), (0 < e)%Z -> powi y e = Some (powerRZ y e)) by (intros y e He; unfold powi; rewrite (proj2 (Z.ltb_ge e 0)) by lia; now rewrite andb_false_r).
  assert (P1 : forall y, powi y 1 = Some y) by (intros y; rewrite P by lia; f_equal; unfold powerRZ; change (Pos.to_nat 1) with 1; apply pow_1).
  assert (P2 : forall y, powi y 2 = Some (y * y)%R) by (intros y; rewrite P by lia; f_equal; unfold powerRZ; change (Pos.to_nat 2) with 2; cbn [pow]; ring).
  exists 4%R, 2%R. cbn [eval fold_right nth_error fst snd obind]. repeat (rewrite ?P1, ?P2; cbn [obind]). split; [f_equal; lra|]. split; [f_equal; lra|lra].
Qed.
Print Assumptions C144_refuted_nested.
(** The derivative of 1 / (1 / x) is printed as an empty text. *)
Theorem C144_refuted_empty : exists f g h, a_div AOne (AProj 0) = Some f /\ a_div AOne f = Some g /\ pderiv 0 g = Some h /\ forall sf, show_fn sf h = [].
Proof.
  assert (R1 : Reqb 1 1 = true) by now apply Reqb_eq. assert (R0 : Reqb 1 0 = false) by (apply Reqb_neq; lra).
  exists (AProd [((-1)%Z, AProj 0)]), (AProd [(1%Z, AProj 0)]), (AProd []). split; [reflexivity|]. split; [reflexivity|]. split; [|reflexivity].
  cbn. unfold a_smul. cbn. rewrite R0, R1. cbn. unfold a_sum, r_sum, g_sum. cbn. rewrite R0. cbn. unfold a_smul. cbn. now rewrite R0, R1.
Qed.
Print Assumptions C144_refuted_empty.

(** The hypotheses are met: integer-valued numbers printed as integers, and -cos(x0) * x0 * x1 + 3. *)
Example f64_display_ex : f64_display (fun a => exists z, a = IZR z) (fun a => show_Z (Int_part a)).
Proof.
  assert (I : forall y z, show_Z y = show_Z z -> y = z) by (intros y z H; apply (show_Z_split y z [] []); rewrite ?app_nil_r; try exact I; exact H).
  split; [now exists 1%Z|]. split; [|split].
  - intros a b (y & ->) (z & ->) E. rewrite !Int_part_IZR in E. now rewrite (I y z E).
  - intros a _. split; [destruct (show_Z_head (Int_part a)) as (c & r & -> & _); discriminate|].
    eapply Forall_impl; [|apply show_Z_num]. intros c H. unfold num in H. apply existsb_exists in H. destruct H as (x & Hx & E). apply Ascii.eqb_eq in E. now subst.
  - intros a z (y & ->) _ E. rewrite Int_part_IZR in E. now rewrite (I y z E).
Qed.
Example C144_ex : exists f, a_mul (a_neg (ACos (AProj 0))) (AProj 1) = Some f /\ built f /\ numbers_in (fun a => exists z, a = IZR z) f /\
  show_fn (fun a => show_Z (Int_part a)) f = lit "(- x[1] cos(x[0]))".
Proof.
  assert (EN : (1 * - (1))%R = (- (1))%R) by lra.
  assert (R1 : Reqb (- (1)) 1 = false) by (apply Reqb_neq; lra). assert (R0 : Reqb (- (1)) 0 = false) by (apply Reqb_neq; lra). assert (RR : Reqb (- (1)) (- (1)) = true) by now apply Reqb_eq.
  exists (ASum [((1 * - (1))%R, AProd [(1%Z, AProj 1); (1%Z, ACos (AProj 0))])]).
  assert (E : a_mul (a_neg (ACos (AProj 0))) (AProj 1) = Some (ASum [((1 * - (1))%R, AProd [(1%Z, AProj 1); (1%Z, ACos (AProj 0))])])).
  { rewrite EN. cbn. rewrite EN. unfold a_smul. cbn. rewrite R0, R1. unfold r_vmul. rewrite R0. cbn. now rewrite EN. }
  split; [exact E|]. split; [eapply b_mul; [apply b_neg, (b_cos (AProj 0)), b_proj|apply b_proj|exact E]|]. split.
  - cbn. repeat split; try lia. exists (-1)%Z. lra.
  - rewrite EN. cbn. unfold first_term. cbn [fst snd]. rewrite R1, RR. reflexivity.
Qed.
