(** Incidence numbers and [Cube::get_boundary]. *)
From Coq Require Import List Arith ZArith NArith Bool Lia ZifyBool ZifyNat ZifyN Permutation Sorted.
From Verif Require Import PidModel LinModel LinSpec LinProofs LinProofs2 MatModel MatSpec GraphModel GraphSpec CubeModel CubeSpec CubeProofs CubeProofs4.
Import ListNotations.
Open Scope nat_scope.

Lemma sum_first n (f : nat -> Z) : sum (S n) f = (f O + sum n (fun k => f (S k)))%Z.
Proof. induction n as [|n IH]; [cbn; lia|]. change (sum (S (S n)) f) with (sum (S n) f + f (S n))%Z. rewrite IH. change (sum (S n) (fun k => f (S k))) with (sum n (fun k => f (S k)) + f (S n))%Z. lia. Qed.

Definition face_term (phi : list factor -> Z) (l : list factor) (i : nat) : Z :=
  match nth i l (FVertex 0) with
  | FEdge x y => (sign (dimension (firstn i l)) * (phi (replaced l i x) - phi (replaced l i y)))%Z
  | FVertex _ => 0%Z
  end.
Lemma sum_extZ n (f g : nat -> Z) : (forall k, k < n -> f k = g k) -> sum n f = sum n g.
Proof. induction n as [|n IH]; intros H; [reflexivity|]. change (sum n f + f n = sum n g + g n)%Z. rewrite IH by (intros; apply H; lia). now rewrite H by lia. Qed.
Lemma sum_oppZ n (f : nat -> Z) : (sum n (fun k => - f k) = - sum n f)%Z.
Proof. induction n as [|n IH]; [reflexivity|]. change (sum n (fun k => - f k) + - f n = - (sum n f + f n))%Z. rewrite IH. lia. Qed.
Lemma sign_S k : sign (S k) = (- sign k)%Z.
Proof. unfold sign. rewrite Nat.even_succ, <- Nat.negb_even. destruct (Nat.even k); reflexivity. Qed.
Lemma faces_sum phi l : forall s pre, ev phi (faces s pre l) = (sgn s * sum (length l) (face_term (fun c => phi (f_sort (pre ++ c))) l))%Z.
Proof.
  induction l as [|a l IH]; intros s pre; [cbn; lia|]. cbn [length]. rewrite sum_first.
  assert (SH : forall k, face_term (fun c => phi (f_sort (pre ++ c))) (a :: l) (S k) = ((if is_edge a then -1 else 1) * face_term (fun c => phi (f_sort ((pre ++ [a]) ++ c))) l k)%Z).
  { intros k. unfold face_term. cbn [nth]. destruct (nth k l (FVertex 0)) as [x y|x]; [|lia]. unfold replaced. cbn [firstn skipn app].
    rewrite <- !app_assoc. cbn [app]. assert (ED : dimension (a :: firstn k l) = (if is_edge a then 1 else 0) + dimension (firstn k l)) by (destruct a; reflexivity). rewrite ED.
    destruct (is_edge a); cbn [Nat.add]; [rewrite sign_S|]; lia. }
  rewrite (sum_extZ _ _ _ (fun k _ => SH k)). destruct a as [x y|x]; cbn [faces is_edge].
  - unfold ev. rewrite !zsum_cons. fold (ev phi (faces (negb s) (pre ++ [FEdge x y]) l)). rewrite IH. cbn [fst snd].
    set (T := face_term (fun c => phi (f_sort ((pre ++ [FEdge x y]) ++ c))) l). assert (ET : sum (length l) (fun k => -1 * T k)%Z = (- sum (length l) T)%Z) by (rewrite <- sum_oppZ; apply sum_extZ; intros; lia). rewrite ET.
    unfold face_term at 1. cbn [nth firstn]. unfold replaced. cbn [firstn skipn app]. change (sign (dimension [])) with 1%Z. destruct s; cbn [sgn negb]; lia.
  - rewrite IH. set (T := face_term (fun c => phi (f_sort ((pre ++ [FVertex x]) ++ c))) l). assert (ET : sum (length l) (fun k => 1 * T k)%Z = sum (length l) T) by (apply sum_extZ; intros; lia). rewrite ET. unfold face_term at 1. cbn [nth]. lia.
Qed.

Definition dirac (f : list factor) : list factor -> Z := fun x => if list_eq_dec f_dec x f then 1%Z else 0%Z.
Lemma same_cells_iff a f : pd a -> pd f -> listed f -> (same_cells a f = true <-> f_sort a = f).
Proof.
  intros Ha Hf Lf. unfold same_cells. rewrite andb_true_iff, !forallb_forall. split.
  - intros [H1 H2]. apply listed_unique; [now apply f_sort_listed|exact Lf|]. transitivity a; [apply f_sort_perm|]. apply NoDup_Permutation; [now apply pd_NoDup|now apply pd_NoDup|].
    intros x. split; intros Hx; [specialize (H1 x Hx)|specialize (H2 x Hx)]; destruct (in_dec _ _ _); congruence.
  - intros E. assert (P : Permutation a f) by (rewrite <- E; symmetry; apply f_sort_perm). split; intros x Hx; destruct (in_dec f_dec x _) as [|N]; try reflexivity; exfalso; apply N; [now rewrite <- P|now rewrite P].
Qed.
Lemma pd_replaced c i x y z : nth i c (FVertex 0) = FEdge x y -> z = x \/ z = y -> pd c -> pd (replaced c i z).
Proof.
  intros E Hz H. assert (Hi : i < length c). { apply Nat.nle_gt. intros K. rewrite nth_overflow in E by exact K. discriminate. }
  assert (EC : c = firstn i c ++ FEdge x y :: skipn (S i) c). { rewrite <- E. clear -Hi. revert i Hi. induction c as [|a c IH]; intros i Hi; [cbn in Hi; lia|]. destruct i as [|i]; [reflexivity|]. cbn [firstn skipn nth app]. f_equal. apply IH. cbn in Hi. lia. }
  rewrite EC in H. unfold replaced. apply (pd_perm _ (FEdge x y :: firstn i c ++ skipn (S i) c)) in H; [|symmetry; apply Permutation_middle]. apply (pd_perm (FVertex z :: firstn i c ++ skipn (S i) c)); [apply Permutation_middle|].
  apply pd_cons in H. apply pd_cons. split; [|apply H]. eapply Forall_impl; [|apply H]. intros f D v [<-|[]]. apply D. cbn. destruct Hz as [-> | ->]; auto.
Qed.
Lemma incidence_Bd c f : pd c -> pd f -> listed f -> incidence c f = Bd (dirac f) c.
Proof.
  intros Hc Hf Lf. unfold Bd. rewrite (faces_sum (dirac f) c true []). cbn [sgn app]. rewrite Z.mul_1_l. apply sum_extZ. intros i Hi. unfold face_term. destruct (nth i c (FVertex 0)) as [x y|x] eqn:E; [|reflexivity].
  assert (K : forall z, z = x \/ z = y -> delta (replaced c i z) f = dirac f (f_sort (replaced c i z))).
  { intros z Hz. pose proof (pd_replaced c i x y z E Hz Hc) as HR. unfold delta, dirac. destruct (list_eq_dec f_dec (f_sort (replaced c i z)) f) as [e|ne]; [now rewrite (proj2 (same_cells_iff _ _ HR Hf Lf) e)|].
    destruct (same_cells (replaced c i z) f) eqn:Es; [|reflexivity]. exfalso. apply ne. now apply same_cells_iff. }
  now rewrite !K by auto.
Qed.

(** The derived order on cubes is total. *)
Lemma f_cmp_eq a b : f_cmp a b = Eq <-> a = b.
Proof.
  destruct a as [x y|x], b as [z w|z]; cbn; try (split; [discriminate|intros E; inversion E]).
  - destruct (x ?= z) eqn:E; [apply Nat.compare_eq_iff in E; rewrite Nat.compare_eq_iff; split; [congruence|intros [= -> ->]; reflexivity]|split; [discriminate|intros [= -> ->]; rewrite Nat.compare_refl in E; discriminate]..].
  - rewrite Nat.compare_eq_iff. split; [congruence|now intros [= ->]].
Qed.
Lemma f_cmp_opp a b : f_cmp b a = CompOpp (f_cmp a b).
Proof.
  destruct a as [x y|x], b as [z w|z]; cbn; try reflexivity; [|now rewrite Nat.compare_antisym].
  rewrite (Nat.compare_antisym x z). destruct (x ?= z); cbn; [now rewrite Nat.compare_antisym|reflexivity..].
Qed.
Lemma f_cmp_trans a b c : f_cmp a b = Lt -> f_cmp b c = Lt -> f_cmp a c = Lt.
Proof.
  destruct a as [x y|x], b as [z w|z], c as [u v|u]; cbn; try discriminate; try reflexivity.
  - destruct (Nat.compare_spec x z) as [E1|E1|E1], (Nat.compare_spec z u) as [E2|E2|E2], (Nat.compare_spec x u) as [E3|E3|E3]; try discriminate; try lia; try reflexivity. rewrite !Nat.compare_lt_iff. lia.
  - rewrite !Nat.compare_lt_iff. lia.
Qed.
Lemma cube_total : total_order cube_cmp.
Proof.
  split; [|split].
  - intros a. induction a as [|x a IH]; intros [|y b]; cbn; try (split; congruence). destruct (f_cmp x y) eqn:E.
    + apply f_cmp_eq in E. subst y. rewrite IH. split; congruence.
    + split; [discriminate|]. intros [= -> ->]. rewrite (proj2 (f_cmp_eq y y) eq_refl) in E. discriminate.
    + split; [discriminate|]. intros [= -> ->]. rewrite (proj2 (f_cmp_eq y y) eq_refl) in E. discriminate.
  - intros a. induction a as [|x a IH]; intros [|y b]; cbn; try reflexivity. rewrite (f_cmp_opp x y). destruct (f_cmp x y); cbn; auto.
  - intros a. induction a as [|x a IH]; intros [|y b] [|z c]; cbn; try discriminate; try reflexivity. destruct (f_cmp x y) eqn:E1; [|intros _|discriminate]; (destruct (f_cmp y z) eqn:E2; [|intros _|discriminate]).
    + apply f_cmp_eq in E1, E2. subst. rewrite (proj2 (f_cmp_eq z z) eq_refl). apply IH.
    + apply f_cmp_eq in E1. subst. now rewrite E2.
    + apply f_cmp_eq in E2. subst. now rewrite E1.
    + now rewrite (f_cmp_trans _ _ _ E1 E2).
Qed.
Lemma vfrom_dirac b x : coeff cube_cmp (vfrom b) x = dirac x b.
Proof.
  rewrite vfrom_coeff. unfold dirac. pose proof (proj1 cube_total b x) as H. destruct (list_eq_dec f_dec b x) as [e|ne]; [now rewrite (proj2 H e)|]. destruct (cube_cmp b x); [exfalso; apply ne, H; reflexivity|reflexivity..].
Qed.

Lemma coeff_support v x : canonical_vec cube_cmp v -> coeff cube_cmp v x <> 0%Z -> In x (map snd v).
Proof. intros Hv H. destruct (in_dec (list_eq_dec f_dec) x (map snd v)) as [i|n]; [exact i|]. exfalso. apply H. now apply coeff_notin; [apply cube_total|]. Qed.
Lemma support_coeff v x : canonical_vec cube_cmp v -> In x (map snd v) -> coeff cube_cmp v x <> 0%Z.
Proof. intros [Hv Hz] H. apply in_map_iff in H. destruct H as ([c y] & <- & Hin). cbn [snd]. rewrite (coeff_in cube_cmp cube_total v c y Hv Hin). rewrite Forall_forall in Hz. apply (Hz _ Hin). Qed.
Lemma boundary_loop_spec l : forall pre v b, canonical_vec cube_cmp v ->
  exists v' b', boundary_loop (v, (- sgn b)%Z) pre l = Some (v', (- sgn b')%Z) /\ canonical_vec cube_cmp v' /\ forall x, coeff cube_cmp v' x = (coeff cube_cmp v x + ev (dirac x) (faces b pre l))%Z.
Proof.
  induction l as [|[x y|x] l IH]; intros pre v b Hv; cbn [boundary_loop faces].
  - exists v, b. split; [reflexivity|]. split; [exact Hv|]. intros x. cbn. lia.
  - unfold boundary_step. cbn [fst snd]. set (b1 := f_sort (pre ++ FVertex x :: l)). set (b2 := f_sort (pre ++ FVertex y :: l)).
    unfold b_sub, vsub, vneg. destruct (scale_ideal (-1) (vfrom b1)) as (w & Ew). rewrite Ew. cbn [obind].
    unfold vadd at 1. destruct (vsum_ideal cube_cmp cube_total [vfrom b2; w]) as (d & Ed). rewrite Ed. cbn [obind].
    pose proof (scale_canonical cube_cmp ideal exact_ideal (-1) (vfrom b1) w ltac:(lia) (vfrom_canonical cube_cmp b1) Ew) as Cw.
    destruct (vadd_spec cube_cmp cube_total ideal exact_ideal (vfrom b2) w d (proj1 (vfrom_canonical cube_cmp b2)) (proj1 Cw) Ed) as [Cd Hd].
    unfold vmul. rewrite (proj2 (Z.eqb_neq (- sgn b) 0)) by (destruct b; cbn; lia). destruct (scale_ideal (- sgn b) d) as (e & Ee). rewrite Ee. cbn [obind].
    pose proof (scale_canonical cube_cmp ideal exact_ideal (- sgn b) d e ltac:(destruct b; cbn; lia) Cd Ee) as Ce.
    assert (EX : exists u, vadd ideal cube_cmp v e = Some u) by apply (vsum_ideal cube_cmp cube_total [v; e]). destruct EX as (u & Eu). rewrite Eu. cbn [obind].
    destruct (vadd_spec cube_cmp cube_total ideal exact_ideal v e u (proj1 Hv) (proj1 Ce) Eu) as [Cu Hu].
    assert (ES : (- sgn b * -1)%Z = (- sgn (negb b))%Z) by (destruct b; reflexivity). rewrite ES.
    destruct (IH (pre ++ [FEdge x y]) u (negb b) Cu) as (v' & b' & E' & C' & H'). exists v', b'. split; [exact E'|]. split; [exact C'|].
    intros z. rewrite H', Hu. destruct (scale_spec cube_cmp ideal exact_ideal _ _ _ Ee) as (_ & He & _). rewrite He, Hd. destruct (scale_spec cube_cmp ideal exact_ideal _ _ _ Ew) as (_ & Hw & _). rewrite Hw, !vfrom_dirac.
    unfold ev. rewrite !zsum_cons. cbn [fst snd]. fold b1 b2. destruct b; cbn [sgn negb]; lia.
  - apply IH. exact Hv.
Qed.
Lemma get_boundary_spec c : exists v, get_boundary c = Some v /\ canonical_vec cube_cmp v /\ forall x, coeff cube_cmp v x = Bd (dirac x) c.
Proof.
  destruct (boundary_loop_spec c [] [] true) as (v & b & E & C & H); [split; constructor|]. exists v. unfold get_boundary. change (-1)%Z with (- sgn true)%Z. rewrite E. cbn [obind fst]. split; [reflexivity|]. split; [exact C|]. intros x. rewrite H. cbn [coeff]. unfold Bd. lia.
Qed.

(** A cochain evaluated on a vector. *)
Lemma zsum_dirac {A} (f : A -> Z) (g : A -> list factor) l (phi : list factor -> Z) S0 : NoDup S0 -> (forall a, In a l -> In (g a) S0) ->
  zsum (fun a => (f a * phi (g a))%Z) l = zsum (fun x => (phi x * zsum (fun a => f a * dirac x (g a)) l)%Z) S0.
Proof.
  intros ND H. induction l as [|a l IH].
  - cbn. symmetry. clear. induction S0 as [|x S0 IH]; [reflexivity|]. rewrite zsum_cons, IH. cbn. lia.
  - rewrite zsum_cons, IH by (intros; apply H; now right). clear IH. specialize (H a (or_introl eq_refl)).
    assert (K : zsum (fun x => phi x * zsum (fun a0 => f a0 * dirac x (g a0)) (a :: l))%Z S0 = (zsum (fun x => phi x * (f a * dirac x (g a)))%Z S0 + zsum (fun x => phi x * zsum (fun a0 => f a0 * dirac x (g a0)) l)%Z S0)%Z).
    { clear. induction S0 as [|x S0 IH]; [reflexivity|]. rewrite !(zsum_cons _ x), IH, zsum_cons. lia. }
    rewrite K. f_equal. clear K. induction S0 as [|x S0 IH]; [destruct H|]. inversion ND as [|? ? N1 N2]; subst. rewrite zsum_cons. destruct H as [->|H].
    + assert (Z0 : zsum (fun x => (phi x * (f a * dirac x (g a)))%Z) S0 = 0%Z). { clear -N1. induction S0 as [|x S0 IH]; [reflexivity|]. rewrite zsum_cons, IH by (intros K; apply N1; now right). unfold dirac. destruct (list_eq_dec f_dec (g a) x) as [e|]; [exfalso; apply N1; now left|lia]. }
      rewrite Z0. unfold dirac. destruct (list_eq_dec f_dec (g a) (g a)); [lia|congruence].
    + rewrite <- IH by assumption. unfold dirac at 1. destruct (list_eq_dec f_dec (g a) x) as [e|]; [|lia]. subst x. contradiction.
Qed.
Lemma coeff_zsum v x : coeff cube_cmp v x = zsum (fun a => (fst a * dirac x (snd a))%Z) v.
Proof. induction v as [|[z f] v IH]; [reflexivity|]. rewrite zsum_cons, <- IH. cbn [coeff fst snd]. pose proof (vfrom_dirac f x) as H. rewrite vfrom_coeff in H. rewrite <- H. destruct (cube_cmp f x); lia. Qed.
Lemma eval_vec v c phi : (forall x, coeff cube_cmp v x = Bd (dirac x) c) -> zsum (fun a => (fst a * phi (snd a))%Z) v = Bd phi c.
Proof.
  intros H. unfold Bd, ev. set (F := faces true [] c) in *. set (S0 := nodup (list_eq_dec f_dec) (map snd v ++ map (fun sf => f_sort (snd sf)) F)).
  assert (ND : NoDup S0) by apply NoDup_nodup.
  rewrite (zsum_dirac fst snd v phi S0 ND) by (intros a Ha; apply nodup_In, in_or_app; left; now apply in_map).
  rewrite (zsum_dirac (fun sf : bool * list factor => sgn (fst sf)) (fun sf => f_sort (snd sf)) F phi S0 ND) by (intros a Ha; apply nodup_In, in_or_app; right; now apply (in_map (fun sf => f_sort (snd sf)))).
  apply zsum_ext. intros x _. f_equal. rewrite <- coeff_zsum. apply H.
Qed.
