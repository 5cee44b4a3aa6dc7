(** The generating function of the configurations of a finite graph, and what a chain of vertices of degree two contributes. *)
From Coq Require Import List Arith ZArith Bool Lia Setoid Morphisms Ring.
From Verif Require Import GalSpec GalProofs.
Import ListNotations.
Open Scope Z_scope.

(** 1 + t + ... + t^k, and the same one degree lower. *)
Fixpoint pk (k : nat) : series := match k with O => sone | S k => sadd sone (smul st (pk k)) end.
Definition qk (k : nat) : series := match k with O => szero | S k => pk k end.
Lemma pk_step k : pk (S (S k)) == ssub (smul (sadd sone st) (pk (S k))) (smul st (pk k)).
Proof. cbn [pk]. ring. Qed.
Lemma qk_step k : qk (S (S k)) == ssub (smul (sadd sone st) (qk (S k))) (smul st (qk k)).
Proof. destruct k as [|k]; cbn [qk]; [cbn [pk]; ring|apply pk_step]. Qed.
Lemma one_minus_t f g : smul (ssub sone st) f == smul (ssub sone st) g -> f == g.
Proof.
  intros H. assert (K : forall h, h == smul sg (smul (ssub sone st) h)).
  { intros h. transitivity (smul (smul (ssub sone st) sg) h); [rewrite sg_spec; ring|ring]. }
  rewrite (K f), (K g), H. reflexivity.
Qed.
Lemma pk_closed k : pk k == ssub sg (smul sg (spow st (S k))).
Proof.
  apply one_minus_t. transitivity (ssub sone (spow st (S k))).
  - induction k as [|k IH]; [cbn [pk spow]; ring|]. cbn [pk]. transitivity (sadd (ssub sone st) (smul st (smul (ssub sone st) (pk k)))); [ring|]. rewrite IH. cbn [spow]. ring.
  - transitivity (ssub (smul (ssub sone st) sg) (smul (smul (ssub sone st) sg) (spow st (S k)))); [rewrite sg_spec; ring|ring].
Qed.
Lemma t_pk k : smul st (pk k) == ssub (smul st sg) (smul sg (spow st (S (S k)))).
Proof. rewrite pk_closed. cbn [spow]. ring. Qed.
Lemma tt_qk k : smul st (smul st (qk k)) == ssub (smul st (smul st sg)) (smul sg (spow st (S (S k)))).
Proof. destruct k as [|k]; cbn [qk]; [cbn [spow]; ring|]. rewrite pk_closed. cbn [spow]. ring. Qed.

Section G.
  Context {A : Type} (dec : forall x y : A, {x = y} + {x <> y}).
  Definition del (x : A) (av : A -> bool) (v : A) : bool := if dec v x then false else av v.
  Definition dels (X : list A) (av : A -> bool) : A -> bool := fold_right del av X.
  Variable V : list A.
  Hypothesis NDV : NoDup V.
  (** Sum over the sets of pairwise disjoint edges of [E] between available vertices, and of the subsets of the vertices left over. *)
  Fixpoint W (E : list (A * A)) (av : A -> bool) : series :=
    match E with
    | [] => sprod (fun v => if av v then sadd sone st else sone) V
    | (a, b) :: E => if av a && av b then ssub (W E av) (smul st (W E (del a (del b av)))) else W E av
    end.
  Lemma del_ext x av av' : (forall v, av v = av' v) -> forall v, del x av v = del x av' v.
  Proof. intros H v. unfold del. now destruct (dec v x). Qed.
  Lemma W_ext E : forall av av', (forall v, av v = av' v) -> W E av == W E av'.
  Proof.
    induction E as [|[a b] E IH]; intros av av' H; cbn [W]; [apply sprod_ext; intros x _; now rewrite H|].
    rewrite (H a), (H b). destruct (av' a && av' b); [|now apply IH]. rewrite (IH _ _ H), (IH (del a (del b av)) (del a (del b av'))); [reflexivity|]. now apply del_ext, del_ext.
  Qed.
  Lemma del_comm x y av v : del x (del y av) v = del y (del x av) v.
  Proof. unfold del. destruct (dec v x), (dec v y); reflexivity. Qed.
  Definition untouched (x : A) (E : list (A * A)) : Prop := Forall (fun e => fst e <> x /\ snd e <> x) E.
  Lemma free x E : In x V -> untouched x E -> forall av, av x = true -> W E av == smul (sadd sone st) (W E (del x av)).
  Proof.
    intros HV HU. induction HU as [|[a b] E [Ha Hb] HU IH]; intros av Hx; cbn [W fst snd] in *.
    - rewrite (sprod_out dec _ V x NDV HV). rewrite Hx. rewrite (sprod_ext (fun v => if del x av v then sadd sone st else sone) (fun y => if dec y x then sone else if av y then sadd sone st else sone) V); [reflexivity|].
      intros y _. unfold del. destruct (dec y x); reflexivity.
    - assert (Ea : del x av a = av a) by (unfold del; destruct (dec a x); [contradiction|reflexivity]). assert (Eb : del x av b = av b) by (unfold del; destruct (dec b x); [contradiction|reflexivity]). rewrite Ea, Eb.
      destruct (av a && av b) eqn:EE; [|now apply IH]. rewrite (IH av Hx), (IH (del a (del b av))).
      + rewrite (W_ext E (del x (del a (del b av))) (del a (del b (del x av)))); [ring|]. intros v. unfold del. destruct (dec v x), (dec v a), (dec v b); reflexivity.
      + unfold del. destruct (dec x a) as [->|]; [contradiction|]. destruct (dec x b) as [->|]; [contradiction|exact Hx].
  Qed.
  (** A chain from [p] through [X] to [t]. *)
  Fixpoint ce (p : A) (X : list A) (t : A) : list (A * A) := match X with [] => [(t, p)] | x :: X => (p, x) :: ce x X t end.
  Definition ce0 (X : list A) (t : A) : list (A * A) := match X with [] => [] | x :: X => ce x X t end.
  Lemma ce_cases p X t : ce p X t = match X with [] => [(t, p)] | x :: _ => (p, x) :: ce0 X t end.
  Proof. destruct X; reflexivity. Qed.
  Lemma ce_untouched x p X t E : x <> p -> x <> t -> ~ In x X -> untouched x E -> untouched x (ce p X t ++ E).
  Proof.
    intros Hp Ht HX HE. revert p Hp HX. induction X as [|y X IH]; intros p Hp HX; cbn; constructor; cbn; try (split; congruence); auto.
    - split; [congruence|]. intros ->. apply HX. now left.
    - apply IH; [intros ->; apply HX; now left|intros H; apply HX; now right].
  Qed.
  (** Dead start: the first edge of a chain that starts at an unavailable vertex. *)
  Lemma dead p X t E av : av p = false -> W (ce p X t ++ E) av = W (ce0 X t ++ E) av.
  Proof. intros H. rewrite ce_cases. destruct X as [|x X]; cbn [app W]; rewrite H; [now rewrite andb_false_r|reflexivity]. Qed.
  Lemma dels_del x X av v : dels X (del x av) v = del x (dels X av) v.
  Proof. induction X as [|y X IH]; [reflexivity|]. cbn [dels fold_right]. fold (dels X av) (dels X (del x av)). rewrite <- del_comm. unfold del at 1. destruct (dec v y) as [e|n]; [unfold del at 1; now destruct (dec v y)|]. rewrite IH. unfold del at 2. now destruct (dec v y). Qed.
  Lemma dels_out X av v : ~ In v X -> dels X av v = av v.
  Proof. induction X as [|x X IH]; intros H; [reflexivity|]. cbn. unfold del at 1. destruct (dec v x) as [->|]; [exfalso; apply H; now left|]. apply IH. intros K. apply H. now right. Qed.
  Lemma chain0 E t : forall X av, NoDup X -> ~ In t X -> (forall x, In x X -> In x V /\ untouched x E /\ av x = true) ->
    W (ce0 X t ++ E) av == ssub (smul (pk (length X)) (W E (dels X av))) (if av t then smul (smul st (qk (length X))) (W E (del t (dels X av))) else szero).
  Proof.
    intros X. remember (length X) as n eqn:En. revert X En. induction n as [n IH] using (well_founded_induction lt_wf). intros X En av ND Nt HX. destruct X as [|x X].
    - cbn in En. subst n. cbn [ce0 app dels fold_right length pk qk]. destruct (av t); ring.
    - inversion ND as [|? ? Nx ND']; subst. destruct (HX x (or_introl eq_refl)) as (Vx & Ux & Ax). cbn [ce0]. destruct X as [|y X].
      + cbn [ce app W length pk qk dels fold_right]. rewrite Ax. rewrite andb_true_r. destruct (av t); rewrite (free x E Vx Ux av Ax); ring.
      + inversion ND' as [|? ? Ny ND'']; subst. destruct (HX y (or_intror (or_introl eq_refl))) as (Vy & Uy & Ay).
        assert (Nxy : x <> y) by (intros ->; apply Nx; now left). assert (Nxt : x <> t) by (intros ->; apply Nt; now left). assert (Nyt : y <> t) by (intros ->; apply Nt; right; now left).
        cbn [ce app W]. rewrite Ax, Ay. cbn [andb]. rewrite (free x (ce y X t ++ E) Vx) by (auto; apply ce_untouched; auto; intros K; apply Nx; now right).
        change (ce y X t) with (ce0 (y :: X) t) at 1. rewrite (IH (length (y :: X)) ltac:(cbn; lia) (y :: X) eq_refl (del x av)); [|exact ND'|intros K; apply Nt; now right|].
        2:{ intros z Hz. destruct (HX z (or_intror Hz)) as (? & ? & Az). repeat split; auto. unfold del. destruct (dec z x) as [->|]; [contradiction|exact Az]. }
        rewrite (dead y X t E (del x (del y av))) by (unfold del; destruct (dec y x); [reflexivity|]; destruct (dec y y); [reflexivity|contradiction]).
        rewrite (IH (length X) ltac:(cbn; lia) X eq_refl (del x (del y av))); [|exact ND''|intros K; apply Nt; right; now right|].
        2:{ intros z Hz. destruct (HX z (or_intror (or_intror Hz))) as (? & ? & Az). repeat split; auto. unfold del. destruct (dec z x) as [->|]; [exfalso; apply Nx; now right|]. destruct (dec z y) as [->|]; [contradiction|exact Az]. }
        assert (Et1 : del x av t = av t) by (unfold del; destruct (dec t x); [congruence|reflexivity]). assert (Et2 : del x (del y av) t = av t) by (unfold del; destruct (dec t x); [congruence|]; destruct (dec t y); [congruence|reflexivity]). rewrite Et1, Et2.
        assert (E1 : forall v, dels (y :: X) (del x av) v = dels (x :: y :: X) av v) by (intros v; apply dels_del).
        assert (E2 : forall v, dels X (del x (del y av)) v = dels (x :: y :: X) av v) by (intros v; rewrite dels_del; apply del_ext; intros w; apply dels_del).
        rewrite (W_ext E _ _ E1), (W_ext E _ _ E2).
        change (length (x :: y :: X)) with (S (S (length X))). change (length (y :: X)) with (S (length X)). rewrite pk_step.
        destruct (av t); [rewrite (W_ext E _ _ (del_ext t _ _ E1)), (W_ext E _ _ (del_ext t _ _ E2)), qk_step|]; ring.
  Qed.
  (** The whole chain between [s] and [t], at least one vertex in between. *)
  Lemma chain E s t x X av : let Y := x :: X in NoDup Y -> ~ In s Y -> ~ In t Y -> (forall y, In y Y -> In y V /\ untouched y E /\ av y = true) ->
    W (ce s Y t ++ E) av == 
      ssub (ssub (smul (pk (length Y)) (W E (dels Y av))) (if av t then smul (smul st (pk (length X))) (W E (del t (dels Y av))) else szero))
           (if av s then ssub (smul (smul st (pk (length X))) (W E (del s (dels Y av)))) (if dec s t then szero else if av t then smul (smul st (smul st (qk (length X)))) (W E (del t (del s (dels Y av)))) else szero) else szero).
  Proof.
    intros Y ND Ns Nt HY. destruct (HY x (or_introl eq_refl)) as (_ & _ & Ax). pose proof (chain0 E t Y av ND Nt HY) as C0. unfold Y in C0 at 1. cbn [ce0] in C0. change (qk (length Y)) with (pk (length X)) in C0.
    unfold Y at 1. cbn [ce app W]. rewrite Ax, andb_true_r. destruct (av s) eqn:As; [|rewrite C0; ring]. rewrite C0.
    assert (Nsx : s <> x) by (intros ->; apply Ns; now left). inversion ND as [|? ? Nx ND']; subst.
    rewrite (dead x X t E (del s (del x av))) by (unfold del; destruct (dec x s); [reflexivity|]; destruct (dec x x); [reflexivity|contradiction]).
    rewrite (chain0 E t X (del s (del x av)) ND'); [|intros K; apply Nt; now right|].
    2:{ intros z Hz. destruct (HY z (or_intror Hz)) as (? & ? & Az). repeat split; auto. unfold del. destruct (dec z s) as [->|]; [exfalso; apply Ns; now right|]. destruct (dec z x) as [->|]; [contradiction|exact Az]. }
    assert (E2 : forall v, dels X (del s (del x av)) v = del s (dels Y av) v) by (intros v; rewrite dels_del; apply del_ext; intros w; apply dels_del).
    rewrite (W_ext E _ _ E2).
    assert (Et : del s (del x av) t = if dec s t then false else av t).
    { unfold del. destruct (dec t s) as [->|N]; [destruct (dec s s); [reflexivity|contradiction]|]. destruct (dec s t); [congruence|]. destruct (dec t x) as [->|]; [exfalso; apply Nt; now left|reflexivity]. }
    rewrite Et. destruct (dec s t); [ring|]. destruct (av t); [rewrite (W_ext E _ _ (del_ext t _ _ E2))|]; ring.
  Qed.
End G.
