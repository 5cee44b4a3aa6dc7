(** Reading a printed text back: self-delimiting printers. *)
From Coq Require Import String Ascii DecimalString DecimalNat DecimalZ DecimalFacts Decimal List ZArith Bool Lia.
From Verif Require Import PidModel MatModel RationalModel PermModel LinModel UtilModel GraphModel LabGraphModel CubeModel ShowModel.
Import ListNotations.
Open Scope nat_scope.
Open Scope list_scope.

Definition digit (c : ascii) : bool := existsb (Ascii.eqb c) (lit "0123456789").
Definition ndigit (c : ascii) : bool := negb (digit c).
(** The text is empty or starts with a character satisfying [P]. *)
Definition stops (P : ascii -> bool) (r : text) : Prop := match r with [] => True | c :: _ => P c = true end.

Lemma lit_inj s t : lit s = lit t -> s = t.
Proof. intros H. rewrite <- (string_of_list_ascii_of_string s), <- (string_of_list_ascii_of_string t). unfold lit in H. now rewrite H. Qed.
Lemma lit_app s t : lit (s ++ t) = lit s ++ lit t.
Proof. induction s as [|c s IH]; [reflexivity|]. cbn. f_equal. exact IH. Qed.

Lemma uint_digits u : Forall (fun c => digit c = true) (lit (NilEmpty.string_of_uint u)).
Proof. induction u; constructor; try reflexivity; assumption. Qed.
Lemma show_nat_digits n : Forall (fun c => digit c = true) (show_nat n).
Proof. apply uint_digits. Qed.
Lemma to_uint_nonnil n : Nat.to_uint n <> Nil.
Proof.
  intros H. pose proof (DecimalNat.Unsigned.of_to n) as K. rewrite H in K. cbn in K. subst n. discriminate H.
Qed.
Lemma lit_nonempty u : u <> Nil -> exists c r, lit (NilEmpty.string_of_uint u) = c :: r.
Proof. destruct u; intros H; try (eexists; eexists; reflexivity). now destruct H. Qed.
Lemma show_nat_head n : exists c r, show_nat n = c :: r /\ digit c = true.
Proof.
  destruct (lit_nonempty (Nat.to_uint n) (to_uint_nonnil n)) as (c & r & E). exists c, r. split; [exact E|].
  pose proof (show_nat_digits n) as F. unfold show_nat in F. rewrite E in F. now inversion F.
Qed.
Lemma string_of_uint_inj u v : NilEmpty.string_of_uint u = NilEmpty.string_of_uint v -> u = v.
Proof. intros H. pose proof (NilEmpty.usu u) as A. rewrite H, NilEmpty.usu in A. congruence. Qed.
Lemma show_nat_inj m n : show_nat m = show_nat n -> m = n.
Proof. intros H. apply lit_inj in H. apply string_of_uint_inj in H. now apply DecimalNat.Unsigned.to_uint_inj in H. Qed.

Lemma digits_split (a b r s : text) : Forall (fun c => digit c = true) a -> Forall (fun c => digit c = true) b ->
  stops ndigit r -> stops ndigit s -> a ++ r = b ++ s -> a = b /\ r = s.
Proof.
  revert b. induction a as [|c a IH]; intros [|d b] Fa Fb Sr Ss H; cbn in H.
  - auto.
  - subst r. inversion Fb; subst. cbn in Sr. unfold ndigit in Sr. rewrite H1 in Sr. discriminate Sr.
  - subst s. inversion Fa; subst. cbn in Ss. unfold ndigit in Ss. rewrite H1 in Ss. discriminate Ss.
  - injection H as E H. inversion Fa; inversion Fb; subst. destruct (IH b) as [P Q]; auto. now subst.
Qed.
Lemma show_nat_split m n r s : stops ndigit r -> stops ndigit s -> show_nat m ++ r = show_nat n ++ s -> m = n /\ r = s.
Proof. intros Sr Ss H. apply digits_split in H; try apply show_nat_digits; try assumption. destruct H as [H ->]. split; [now apply show_nat_inj|reflexivity]. Qed.

Lemma show_Z_cases z : (exists u, u <> Nil /\ Z.to_int z = Pos u /\ show_Z z = lit (NilEmpty.string_of_uint u) /\ (0 <= z)%Z) \/
  (exists u, u <> Nil /\ Z.to_int z = Neg u /\ show_Z z = "-"%char :: lit (NilEmpty.string_of_uint u) /\ (z < 0)%Z).
Proof.
  unfold show_Z. destruct (Z.to_int z) as [u|u] eqn:E; [left|right]; exists u.
  - split; [|split; [reflexivity|split; [reflexivity|]]].
    + intros ->. pose proof (DecimalZ.of_to z) as K. rewrite E in K. cbn in K. subst z. discriminate E.
    + destruct z; cbn in E; try discriminate E; lia.
  - split; [|split; [reflexivity|split; [reflexivity|]]].
    + intros ->. pose proof (DecimalZ.of_to z) as K. rewrite E in K. cbn in K. subst z. discriminate E.
    + destruct z; cbn in E; try discriminate E; lia.
Qed.
Lemma show_Z_head z : exists c r, show_Z z = c :: r /\ (digit c = true \/ c = "-"%char).
Proof.
  destruct (show_Z_cases z) as [(u & N & _ & E & _)|(u & N & _ & E & _)].
  - destruct (lit_nonempty u N) as (c & r & K). exists c, r. rewrite E, K. split; [reflexivity|left]. pose proof (uint_digits u) as F. rewrite K in F. now inversion F.
  - rewrite E. eexists; eexists. split; [reflexivity|now right].
Qed.
Lemma show_Z_nonneg_head z : (0 <= z)%Z -> exists c r, show_Z z = c :: r /\ digit c = true.
Proof.
  intros Hz. destruct (show_Z_cases z) as [(u & N & _ & E & _)|(u & N & _ & E & L)]; [|lia].
  destruct (lit_nonempty u N) as (c & r & K). exists c, r. rewrite E, K. split; [reflexivity|]. pose proof (uint_digits u) as F. rewrite K in F. now inversion F.
Qed.
Lemma show_Z_split y z r s : stops ndigit r -> stops ndigit s -> show_Z y ++ r = show_Z z ++ s -> y = z /\ r = s.
Proof.
  intros Sr Ss H.
  assert (D : forall u c t, u <> Nil -> lit (NilEmpty.string_of_uint u) ++ t <> "-"%char :: c).
  { intros u c t N K. destruct (lit_nonempty u N) as (d & q & E). pose proof (uint_digits u) as F. rewrite E in *. cbn in K. injection K as K _. inversion F; subst. discriminate. }
  destruct (show_Z_cases y) as [(u & N & Ey & Sy & _)|(u & N & Ey & Sy & _)]; destruct (show_Z_cases z) as [(v & M & Ez & Sz & _)|(v & M & Ez & Sz & _)];
    rewrite Sy, Sz in H; cbn [app] in H.
  - apply digits_split in H; try apply uint_digits; try assumption. destruct H as [H ->]. apply lit_inj, string_of_uint_inj in H. subst v. split; [|reflexivity]. apply DecimalZ.to_int_inj. congruence.
  - now apply D in H.
  - symmetry in H. now apply D in H.
  - injection H as H. apply digits_split in H; try apply uint_digits; try assumption. destruct H as [H ->]. apply lit_inj, string_of_uint_inj in H. subst v. split; [|reflexivity]. apply DecimalZ.to_int_inj. congruence.
Qed.

Ltac st := cbn; first [exact I | reflexivity | assumption].

(** Lists: each item starts with the character [c0], and what follows does not. *)
Lemma concat_split {A} (sh : A -> text) (D : A -> Prop) (c0 : ascii) (P : ascii -> bool) :
  (forall a b r s, D a -> D b -> stops P r -> stops P s -> sh a ++ r = sh b ++ s -> a = b /\ r = s) ->
  (forall a, exists r, sh a = c0 :: r) -> P c0 = true ->
  forall l m r s, Forall D l -> Forall D m -> stops (fun c => P c && negb (Ascii.eqb c c0)) r -> stops (fun c => P c && negb (Ascii.eqb c c0)) s ->
  concat (map sh l) ++ r = concat (map sh m) ++ s -> l = m /\ r = s.
Proof.
  intros Hs Hh Hp.
  assert (W : forall r, stops (fun c => P c && negb (Ascii.eqb c c0)) r -> stops P r).
  { intros [|c r] K; [exact I|]. cbn in *. now apply andb_prop in K. }
  assert (X : forall a l r, sh a ++ l <> r \/ ~ stops (fun c => P c && negb (Ascii.eqb c c0)) r).
  { intros a l r. destruct (Hh a) as [q E]. destruct r as [|c r]; [left; rewrite E; discriminate|]. destruct (Ascii.eqb_spec c c0) as [->|N].
    - right. cbn. rewrite Ascii.eqb_refl, andb_false_r. discriminate.
    - left. rewrite E. cbn. intros K. injection K as K. congruence. }
  assert (Y : forall l r, stops (fun c => P c && negb (Ascii.eqb c c0)) r -> stops P (concat (map sh l) ++ r)).
  { intros [|a l] r K; [now apply W|]. cbn. destruct (Hh a) as [q ->]. cbn. exact Hp. }
  induction l as [|a l IH]; intros [|b m] r s Dl Dm Sr Ss H; cbn in H.
  - auto.
  - rewrite <- app_assoc in H. symmetry in H. destruct (X b (concat (map sh m) ++ s) r) as [K|K]; [now destruct K|now destruct K].
  - rewrite <- app_assoc in H. destruct (X a (concat (map sh l) ++ r) s) as [K|K]; [now destruct K|now destruct K].
  - rewrite <- !app_assoc in H. inversion Dl; inversion Dm; subst. apply Hs in H; auto. destruct H as [-> H]. apply IH in H; auto. destruct H as [-> ->]. auto.
Qed.

(** Modules *)
Lemma torsion_split t u r s : stops ndigit r -> stops ndigit s -> show_torsion t ++ r = show_torsion u ++ s -> t = u /\ r = s.
Proof.
  destruct t as [d m], u as [e n]. unfold show_torsion. cbn [fst snd]. intros Sr Ss H.
  destruct (Nat.eqb_spec m 1) as [->|Hm]; destruct (Nat.eqb_spec n 1) as [->|Hn].
  - rewrite <- !app_assoc in H. cbn in H. injection H as H. apply show_Z_split in H; try assumption. destruct H as [-> ->]. auto.
  - cbn in H. discriminate H.
  - cbn in H. discriminate H.
  - rewrite <- !app_assoc in H. cbn -[show_Z show_nat] in H. injection H as H. apply show_Z_split in H; [|st|st]. destruct H as [-> H].
    injection H as H. apply show_nat_split in H; try assumption. destruct H as [-> ->]. auto.
Qed.
Definition plus_torsion (t : Z * nat) : text := lit " + " ++ show_torsion t.
Lemma torsions_split l m r s : stops (fun c => ndigit c && negb (Ascii.eqb c " ")) r -> stops (fun c => ndigit c && negb (Ascii.eqb c " ")) s ->
  concat (map plus_torsion l) ++ r = concat (map plus_torsion m) ++ s -> l = m /\ r = s.
Proof.
  intros Sr Ss H. apply (concat_split plus_torsion (fun _ => True) " "%char ndigit) in H; try assumption; auto.
  - intros a b r' s' _ _ Sr' Ss' K. unfold plus_torsion in K. rewrite <- !app_assoc in K. cbn -[show_torsion] in K. injection K as K. now apply torsion_split.
  - intros a. eexists. reflexivity.
  - now apply Forall_forall.
  - now apply Forall_forall.
Qed.

Lemma stops_weak r : stops (fun c => ndigit c && negb (Ascii.eqb c " ")) r -> stops ndigit r.
Proof. destruct r as [|c r]; [auto|]. cbn. intros H. now apply andb_prop in H. Qed.
Lemma stops_torsions l r : stops (fun c => ndigit c && negb (Ascii.eqb c " ")) r -> stops ndigit (concat (map plus_torsion l) ++ r).
Proof. destruct l as [|t l]; [apply stops_weak|]. intros _. reflexivity. Qed.

(** The sum of the summands, in order. *)
Definition free_text (n : nat) : text := if n =? 1 then lit "Z" else lit "Z^" ++ show_nat n.
Lemma show_module_shape m : show_module m =
  match free_rank m, elementary_divisors m with
  | 0, [] => lit "0"
  | 0, t :: l => show_torsion t ++ concat (map plus_torsion l)
  | n, l => free_text n ++ concat (map plus_torsion l)
  end.
Proof.
  destruct m as [n l]. unfold show_module, module_is_zero, free_text, plus_torsion. cbn [free_rank elementary_divisors].
  destruct n as [|[|n]], l as [|t l]; cbn -[show_nat show_torsion]; rewrite ?app_nil_r, <- ?app_assoc; reflexivity.
Qed.
Lemma free_split m n r s : 0 < m -> 0 < n -> stops (fun c => ndigit c && negb (Ascii.eqb c "^")) r -> stops (fun c => ndigit c && negb (Ascii.eqb c "^")) s ->
  free_text m ++ r = free_text n ++ s -> m = n /\ r = s.
Proof.
  intros Hm Hn Sr Ss H. unfold free_text in H.
  assert (W : forall r, stops (fun c => ndigit c && negb (Ascii.eqb c "^")) r -> stops ndigit r) by (intros [|c q] K; [exact I|]; cbn in *; now apply andb_prop in K).
  assert (X : forall r q, stops (fun c => ndigit c && negb (Ascii.eqb c "^")) r -> r <> "^"%char :: q) by (intros q' q K ->; discriminate K).
  destruct (Nat.eqb_spec m 1) as [->|Am]; destruct (Nat.eqb_spec n 1) as [->|An]; rewrite <- ?app_assoc in H; cbn -[show_nat] in H; injection H as H.
  - auto.
  - now apply X in H.
  - symmetry in H. now apply X in H.
  - apply show_nat_split in H; auto.
Qed.
Lemma stops_torsions' l r : stops (fun c => ndigit c && negb (Ascii.eqb c " ") && negb (Ascii.eqb c "_") && negb (Ascii.eqb c "^")) r ->
  stops (fun c => ndigit c && negb (Ascii.eqb c "^")) (concat (map plus_torsion l) ++ r).
Proof. destruct l as [|t l]; [|reflexivity]. destruct r as [|c r]; [auto|]. cbn. rewrite !andb_true_iff. tauto. Qed.
Lemma torsion_not_free t n r s : stops (fun c => ndigit c && negb (Ascii.eqb c "_") && negb (Ascii.eqb c "^")) s -> show_torsion t ++ r <> free_text n ++ s.
Proof.
  intros Ss H. unfold show_torsion, free_text in H. destruct (snd t =? 1); rewrite <- !app_assoc in H; destruct (n =? 1); cbn -[show_Z show_nat] in H; try discriminate H.
  injection H as H. rewrite <- H in Ss. discriminate Ss.
Qed.
Lemma module_split a b r s : stops (fun c => Ascii.eqb c ",") r -> stops (fun c => Ascii.eqb c ",") s ->
  show_module a ++ r = show_module b ++ s -> a = b /\ r = s.
Proof.
  intros Sr Ss.
  assert (W : forall r, stops (fun c => Ascii.eqb c ",") r -> stops (fun c => ndigit c && negb (Ascii.eqb c " ")) r /\
     stops (fun c => ndigit c && negb (Ascii.eqb c " ") && negb (Ascii.eqb c "_") && negb (Ascii.eqb c "^")) r /\ stops (fun c => ndigit c && negb (Ascii.eqb c "^")) r).
  { intros [|c q] K; [cbn; auto|]. cbn in *. apply Ascii.eqb_eq in K. subst c. auto. }
  assert (W2 : forall l r, stops (fun c => Ascii.eqb c ",") r -> stops (fun c => ndigit c && negb (Ascii.eqb c "_") && negb (Ascii.eqb c "^")) (concat (map plus_torsion l) ++ r)).
  { intros [|t l] q K; [|reflexivity]. destruct q as [|c q]; [exact I|]. cbn in *. apply Ascii.eqb_eq in K. subst c. reflexivity. }
  destruct (W r Sr) as (R1 & R2 & R3), (W s Ss) as (S1 & S2 & S3).
  rewrite !show_module_shape. destruct a as [n l], b as [m k]. cbn [free_rank elementary_divisors]. intros H.
  assert (Z0 : forall t l q, show_torsion t ++ l <> "0"%char :: q) by (intros t l' q K; unfold show_torsion in K; destruct (snd t =? 1); discriminate K).
  assert (F0 : forall n l q, free_text n ++ l <> "0"%char :: q) by (intros t l' q K; unfold free_text in K; destruct (t =? 1); discriminate K).
  destruct n as [|n], m as [|m].
  - destruct l as [|t l], k as [|u k].
    + injection H as ->. auto.
    + cbn [lit list_ascii_of_string app] in H. symmetry in H. rewrite <- app_assoc in H. now apply Z0 in H.
    + cbn [lit list_ascii_of_string app] in H. rewrite <- app_assoc in H. now apply Z0 in H.
    + rewrite <- !app_assoc in H. apply torsion_split in H; [|now apply stops_torsions|now apply stops_torsions]. destruct H as [-> H]. apply torsions_split in H; try assumption. destruct H as [-> ->]. auto.
  - destruct l as [|t l].
    + symmetry in H. rewrite <- app_assoc in H. now apply F0 in H.
    + rewrite <- !app_assoc in H. exfalso. now apply torsion_not_free in H; [|apply W2].
  - destruct k as [|u k].
    + rewrite <- app_assoc in H. now apply F0 in H.
    + symmetry in H. rewrite <- !app_assoc in H. exfalso. now apply torsion_not_free in H; [|apply W2].
  - rewrite <- !app_assoc in H. apply free_split in H; try lia; try now apply stops_torsions'. destruct H as [E H]. injection E as ->. apply torsions_split in H; try assumption. destruct H as [-> ->]. auto.
Qed.

Definition show_line (im : nat * module_) : text := lit "dim " ++ show_nat (fst im) ++ lit ": " ++ show_module (snd im) ++ lit "," ++ ["010"%char].
Lemma line_split a b r s : show_line a ++ r = show_line b ++ s -> a = b /\ r = s.
Proof.
  destruct a as [i m], b as [j k]. unfold show_line. cbn [fst snd]. rewrite <- !app_assoc. intros H. cbn -[show_nat show_module] in H. injection H as H.
  apply show_nat_split in H; [|st|st]. destruct H as [-> H]. injection H as H. apply module_split in H; [|st|st]. destruct H as [-> H]. injection H as ->. auto.
Qed.
Lemma lines_inj l m : concat (map show_line l) = concat (map show_line m) -> l = m.
Proof.
  revert m. induction l as [|a l IH]; intros [|b m] H; cbn [map concat] in H.
  - reflexivity.
  - discriminate H.
  - discriminate H.
  - apply line_split in H. destruct H as [-> H]. now rewrite (IH m).
Qed.
Lemma show_homology_lines h : show_homology h = concat (map show_line (combine (seq 0 (length h)) h)).
Proof. reflexivity. Qed.
Lemma combine_seq_inj {A} (l m : list A) k : combine (seq k (length l)) l = combine (seq k (length m)) m -> l = m.
Proof. revert k m. induction l as [|a l IH]; intros k [|b m] H; cbn in H; try discriminate H; [reflexivity|]. injection H as E H. subst b. f_equal. exact (IH _ _ H). Qed.
Lemma show_homology_inj g h : show_homology g = show_homology h -> g = h.
Proof. rewrite !show_homology_lines. intros H. apply lines_inj in H. now apply combine_seq_inj in H. Qed.
Lemma show_module_inj a b : show_module a = show_module b -> a = b.
Proof. intros H. apply (module_split a b [] []); try exact I. now rewrite H. Qed.
