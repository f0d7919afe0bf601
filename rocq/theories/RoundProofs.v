(** Rounding errors of linear operators: proofs *)
From Coq Require Import Reals NArith ZArith List Bool Sorted Permutation Lia Lra Psatz.
From Verif Require Import BitsModel BitsSpec BitsProofs ExprModel ExprSpec ExprOrder ExprMap ExprEval HSModel HSSpec HSEnum HSProofs HSMain
  LOpModel LOpSpec LOpFermion LOpSite LOpActF LOpActB LOpActS LOpComm LOpApply LOpMatrix RoundSpec.
Import ListNotations.
Close Scope N_scope.
Close Scope nat_scope.
Local Open Scope R_scope.

Section Err.
Context {S : Type} (so fo : scalar_ops S) (sq sqf : N -> S) (half halff : Z -> S) (nrm : S -> R) (u tol : R).
Context (L : scalar_laws so) (MC : forall x y, s_mul so x y = s_mul so y x).
Context (NL : norm_laws so nrm) (RO : rounds so fo sq sqf half halff nrm u tol).
Notation "x [+] y" := (s_add so x y) (at level 50, left associativity).
Notation "x [-] y" := (s_sub so x y) (at level 50, left associativity).
Notation "x [*] y" := (s_mul so x y) (at level 40, left associativity).
Notation "'err' k" := ((1 + u) ^ k - 1) (at level 9, k at level 9).

Let U0 : 0 <= u := ro_u _ _ _ _ _ _ _ _ _ RO.
Lemma pow_ge_1 k : 1 <= (1 + u) ^ k.
Proof. apply pow_R1_Rle. lra. Qed.
Lemma err_pos k : 0 <= err k.
Proof. pose proof (pow_ge_1 k). lra. Qed.
Lemma err_mono j k : (j <= k)%nat -> err j <= err k.
Proof. intros H. apply Rplus_le_compat_r. apply Rle_pow; [lra|exact H]. Qed.
Lemma pow_mono j k : (j <= k)%nat -> (1 + u) ^ j <= (1 + u) ^ k.
Proof. intros H. apply Rle_pow; [lra|exact H]. Qed.

Lemma sub_split a b c : a [-] c = (a [-] b) [+] (b [-] c).
Proof.
  rewrite !(sl_sub so L). rewrite <- (sl_add_assoc so L), (sl_add_assoc so L (s_neg so b)).
  rewrite (sl_add_comm so L (s_neg so b) b), (sl_neg so L), (sl_add_0 so L). reflexivity.
Qed.
Lemma tri a b c : nrm (a [-] c) <= nrm (a [-] b) + nrm (b [-] c).
Proof. rewrite (sub_split a b c). apply (nl_add _ _ NL). Qed.
Lemma sub_add a b : a = b [+] (a [-] b).
Proof.
  rewrite (sl_sub so L), (sl_add_comm so L a), (sl_add_assoc so L), (sl_neg so L), (sl_add_0 so L). reflexivity.
Qed.
Lemma near_norm a b : nrm a <= nrm b + nrm (a [-] b).
Proof. rewrite (sub_add a b) at 1. apply (nl_add _ _ NL). Qed.
Lemma sub_self a : a [-] a = s_zero so.
Proof. rewrite (sl_sub so L). apply (sl_neg so L). Qed.
Lemma mul_diff a b c d : a [*] b [-] c [*] d = (a [-] c) [*] b [+] c [*] (b [-] d).
Proof.
  rewrite !(sl_sub so L), (sl_dist_r so L), (sl_dist_l so L).
  assert (E : s_neg so c [*] b [+] c [*] b = s_zero so).
  { rewrite <- (sl_dist_r so L), (sl_add_comm so L), (sl_neg so L). apply (mul_0_l so L). }
  assert (E2 : c [*] s_neg so d = s_neg so (c [*] d)).
  { assert (Q : c [*] d [+] c [*] s_neg so d = s_zero so) by (rewrite <- (sl_dist_l so L), (sl_neg so L); apply (mul_0_r so L)).
    rewrite <- (sl_add_0 so L (c [*] s_neg so d)). rewrite <- (sl_neg so L (c [*] d)) at 1.
    rewrite (sl_add_comm so L (c [*] d)), <- (sl_add_assoc so L), Q. apply (sadd_0_r so L). }
  rewrite E2, <- (sl_add_assoc so L). f_equal. rewrite (sl_add_assoc so L), E, (sl_add_0 so L). reflexivity.
Qed.
Lemma add_diff a b c d : (a [+] b) [-] (c [+] d) = (a [-] c) [+] (b [-] d).
Proof.
  rewrite !(sl_sub so L). assert (E : s_neg so (c [+] d) = s_neg so c [+] s_neg so d).
  { rewrite <- (sl_add_0 so L (s_neg so c [+] s_neg so d)).
    rewrite <- (sl_neg so L (c [+] d)), (sl_add_comm so L (c [+] d)), <- (sl_add_assoc so L), (sadd_4 so L), !(sl_neg so L), (sl_add_0 so L).
    symmetry. apply (sadd_0_r so L). }
  rewrite E. apply (sadd_4 so L).
Qed.

(** [x'] approximates [x] with k roundings *)
Definition close (k : nat) (x' x : S) : Prop := nrm (x' [-] x) <= err k * nrm x.
Lemma close_refl k x : close k x x.
Proof. unfold close. rewrite sub_self, (nl_0 _ _ NL). apply Rmult_le_pos; [apply err_pos|apply (nl_pos _ _ NL)]. Qed.
Lemma close_mono j k x' x : (j <= k)%nat -> close j x' x -> close k x' x.
Proof. intros H C. eapply Rle_trans; [exact C|]. apply Rmult_le_compat_r; [apply (nl_pos _ _ NL)|now apply err_mono]. Qed.
Lemma close_norm k x' x : close k x' x -> nrm x' <= (1 + u) ^ k * nrm x.
Proof. intros C. pose proof (near_norm x' x). unfold close in C. lra. Qed.
Lemma close_mul j k x' x y' y : close j x' x -> close k y' y -> close (Datatypes.S (j + k)) (s_mul fo x' y') (x [*] y).
Proof.
  intros C1 C2. pose proof (close_norm _ _ _ C1) as N1. pose proof (close_norm _ _ _ C2) as N2. unfold close in *.
  pose proof (nl_pos _ _ NL x) as Px. pose proof (nl_pos _ _ NL y) as Py. pose proof (nl_pos _ _ NL x') as Px'. pose proof (nl_pos _ _ NL y') as Py'.
  pose proof (pow_ge_1 j) as Pj. pose proof (pow_ge_1 k) as Pk.
  assert (D : nrm (x' [*] y' [-] x [*] y) <= ((1 + u) ^ j * (1 + u) ^ k - 1) * (nrm x * nrm y)).
  { rewrite mul_diff. eapply Rle_trans; [apply (nl_add _ _ NL)|]. rewrite !(nl_mul _ _ NL).
    assert (A1 : nrm (x' [-] x) * nrm y' <= (err j * nrm x) * ((1 + u) ^ k * nrm y)).
    { apply Rmult_le_compat; auto; apply (nl_pos _ _ NL). }
    assert (A2 : nrm x * nrm (y' [-] y) <= nrm x * (err k * nrm y)) by (apply Rmult_le_compat_l; auto).
    nra. }
  eapply Rle_trans; [apply (tri _ (x' [*] y'))|]. pose proof (ro_mul _ _ _ _ _ _ _ _ _ RO x' y') as Q.
  rewrite (nl_mul _ _ NL) in Q |- *.
  assert (A3 : nrm x' * nrm y' <= ((1 + u) ^ j * (1 + u) ^ k) * (nrm x * nrm y)).
  { eapply Rle_trans; [apply Rmult_le_compat; [exact Px'|exact Py'|exact N1|exact N2]|]. right. ring. }
  assert (A4 : u * (nrm x' * nrm y') <= u * (((1 + u) ^ j * (1 + u) ^ k) * (nrm x * nrm y))) by (apply Rmult_le_compat_l; auto).
  replace ((1 + u) ^ Datatypes.S (j + k)) with ((1 + u) * ((1 + u) ^ j * (1 + u) ^ k)) by (cbn [pow]; now rewrite pow_add).
  set (M := (1 + u) ^ j * (1 + u) ^ k) in *. nra.
Qed.
Lemma close_mul' j k n x' x y' y : close j x' x -> close k y' y -> (j + k + 1 <= n)%nat -> close n (s_mul fo x' y') (x [*] y).
Proof. intros C1 C2 H. eapply close_mono; [|exact (close_mul _ _ _ _ _ _ C1 C2)]. lia. Qed.
Lemma close_sq n : close 2 (sqf n) (sq n).
Proof. apply (ro_sq _ _ _ _ _ _ _ _ _ RO). Qed.
Lemma close_half z : close 1 (halff z) (half z).
Proof. unfold close. rewrite pow_1. replace (1 + u - 1) with u by ring. apply (ro_half _ _ _ _ _ _ _ _ _ RO). Qed.
Lemma close_m1 : close 0 (minus_one fo) (minus_one so).
Proof. unfold minus_one. rewrite (ro_neg _ _ _ _ _ _ _ _ _ RO), (ro_1 _ _ _ _ _ _ _ _ _ RO). apply close_refl. Qed.

(** results of act() *)
Definition rclose (k : nat) (r' r : ares S) : Prop :=
  match r', r with
  | AZero, AZero => True
  | ABad, ABad => True
  | AVal c' i', AVal c i => i' = i /\ close k c' c
  | _, _ => False
  end.
Lemma rclose_mono j k r' r : (j <= k)%nat -> rclose j r' r -> rclose k r' r.
Proof. intros H. destruct r', r; cbn; auto. intros [E C]. split; auto. eapply close_mono; eauto. Qed.

Definition fcost (a : fermion_action) : nat := if fa_const a then 0 else 1.
Lemma fermion_close a i k c' c : close k c' c -> rclose (k + fcost a) (fermion_act fo a i c') (fermion_act so a i c).
Proof.
  intros C. unfold fermion_act, fcost. destruct (fa_const a); [cbn; split; auto; eapply close_mono; [|exact C]; lia|].
  destruct (negb _); [exact Logic.I|]. cbv zeta. destruct (negb _); [exact Logic.I|].
  cbn [rclose]. split; auto. destruct (parity _).
  - apply (close_mul' k 0); auto; [apply close_m1|lia].
  - eapply close_mono; [|exact C]. lia.
Qed.
Lemma roots_close size ns : forall k c' c, close k c' c ->
  match mul_roots fo sqf size ns c', mul_roots so sq size ns c with
  | Some d', Some d => close (k + 3 * length ns) d' d
  | None, None => True
  | _, _ => False
  end.
Proof.
  induction ns as [|n ns IH]; intros k c' c C; cbn [mul_roots length].
  - eapply close_mono; [|exact C]. lia.
  - unfold sqr_root. destruct (N.ltb n max_sqrt); [destruct (N.ltb n size); [|exact Logic.I]|].
    + pose proof (IH (Datatypes.S (k + 2)) _ _ (close_mul _ _ _ _ _ _ C (close_sq n))) as Q.
      destruct (mul_roots fo sqf size ns _), (mul_roots so sq size ns _); auto. eapply close_mono; [|exact Q]. lia.
    + pose proof (IH (Datatypes.S (k + 2)) _ _ (close_mul _ _ _ _ _ _ C (close_sq n))) as Q.
      destruct (mul_roots fo sqf size ns _), (mul_roots so sq size ns _); auto. eapply close_mono; [|exact Q]. lia.
Qed.
Definition bcost (x : boson_update) : nat := 3 * Z.to_nat (Z.abs (bu_change x)).
Lemma zrange_length k : length (zrange k) = k.
Proof. unfold zrange. now rewrite map_length, seq_length. Qed.
Lemma boson_close size x i k c' c : close k c' c ->
  rclose (k + bcost x) (boson_update_act fo sqf size x i c') (boson_update_act so sq size x i c).
Proof.
  intros C. unfold boson_update_act, bcost. cbv zeta. destruct (_ || _)%bool; [exact Logic.I|].
  match goal with |- context [mul_roots fo sqf size ?ns c'] => pose proof (roots_close size ns k c' c C) as Q;
    assert (Ln : length ns = Z.to_nat (Z.abs (bu_change x))) end.
  { destruct (Z.ltb_spec 0 (bu_change x)); rewrite map_length, zrange_length; f_equal; lia. }
  rewrite Ln in Q. destruct (mul_roots fo sqf size _ c'), (mul_roots so sq size _ c); cbn [rclose]; auto.
Qed.
Lemma spow_close z n : close (2 * n) (spow fo (halff z) n) (spow so (half z) n).
Proof.
  induction n as [|n IH]; cbn [spow].
  - rewrite (ro_1 _ _ _ _ _ _ _ _ _ RO). apply close_refl.
  - eapply close_mul'; [apply close_half|exact IH|lia].
Qed.
Definition scost (x : spin_update) : nat := Nat.max (3 * N.to_nat (su_power x)) (2 * N.to_nat (su_power x) + 1).
Lemma spin_close size x i k c' c : close k c' c ->
  rclose (k + scost x) (spin_update_act fo sqf halff size x i c') (spin_update_act so sq half size x i c).
Proof.
  intros C. unfold spin_update_act, scost. cbv zeta. destruct (su_c x).
  - destruct (N.ltb _ _); [exact Logic.I|].
    match goal with |- context [mul_roots fo sqf size ?ns c'] => pose proof (roots_close size ns k c' c C) as Q end.
    rewrite map_length, zrange_length in Q.
    destruct (mul_roots fo sqf size _ c'), (mul_roots so sq size _ c); cbn [rclose]; auto. split; auto. eapply close_mono; [|exact Q]. lia.
  - destruct (N.ltb _ _); [exact Logic.I|].
    match goal with |- context [mul_roots fo sqf size ?ns c'] => pose proof (roots_close size ns k c' c C) as Q end.
    rewrite map_length, zrange_length in Q.
    destruct (mul_roots fo sqf size _ c'), (mul_roots so sq size _ c); cbn [rclose]; auto. split; auto. eapply close_mono; [|exact Q]. lia.
  - destruct (_ && _)%bool; [exact Logic.I|]. cbn [rclose]. split; auto.
    eapply close_mul'; [exact C|apply spow_close|]. lia.
Qed.
Fixpoint sumn {A} (f : A -> nat) (l : list A) : nat := match l with [] => 0%nat | x :: t => (f x + sumn f t)%nat end.
Lemma sumn_app {A} (f : A -> nat) a b : sumn f (a ++ b) = (sumn f a + sumn f b)%nat.
Proof. induction a; cbn; auto. rewrite IHa. lia. Qed.
Lemma sumn_rev {A} (f : A -> nat) a : sumn f (rev a) = sumn f a.
Proof. induction a; cbn; auto. rewrite sumn_app, IHa. cbn. lia. Qed.
Lemma updates_close {A} (f' f : A -> N -> S -> ares S) (cost : A -> nat) :
  (forall x i k c' c, close k c' c -> rclose (k + cost x) (f' x i c') (f x i c)) ->
  forall l i k c' c, close k c' c -> rclose (k + sumn cost l) (run_updates f' l i c') (run_updates f l i c).
Proof.
  intros H. induction l as [|x l IH]; intros i k c' c C; cbn [run_updates sumn].
  - cbn. split; auto. eapply close_mono; [|exact C]. lia.
  - pose proof (H x i k c' c C) as Q. destruct (f' x i c') as [|d' j'|], (f x i c) as [|d j|]; cbn [rclose] in Q; try contradiction; try exact Logic.I.
    destruct Q as [-> Q]. eapply rclose_mono; [|exact (IH j _ _ _ Q)]. lia.
Qed.
Definition acost (a : action) : nat :=
  match a with
  | ActF f => fcost f
  | ActB b => sumn bcost (ba_updates b)
  | ActS s => sumn scost (sa_updates s)
  end.
Lemma single_close a i k c' c : close k c' c -> rclose (k + acost a) (single_act fo sqf halff a i c') (single_act so sq half a i c).
Proof.
  intros C. destruct a as [f|b|s]; cbn [single_act acost].
  - now apply fermion_close.
  - unfold boson_act. destruct (ba_vanishing b); [exact Logic.I|]. rewrite <- sumn_rev.
    apply updates_close; auto. intros. now apply boson_close.
  - unfold spin_act. rewrite <- sumn_rev. apply updates_close; auto. intros. now apply spin_close.
Qed.
Lemma mono_close l i : rclose (sumn acost l) (mono_run fo sqf halff l i (s_one fo)) (mono_run so sq half l i (s_one so)).
Proof.
  unfold mono_run. rewrite (ro_1 _ _ _ _ _ _ _ _ _ RO). change (sumn acost l) with (0 + sumn acost l)%nat. apply updates_close.
  - intros. now apply single_close.
  - apply close_refl.
Qed.

(** the cost of the action of a monomial *)
Section Cost.
Context {I : Type} (io : index_ops I).
Lemma fermion_cost h (m : list (gen I)) f : fermion_make io h m = LOk f -> (fcost f <= length m)%nat.
Proof.
  unfold fermion_make. destruct m as [|g m].
  - intros E. inversion E. cbn. lia.
  - intros _. unfold fcost. destruct (fa_const f); cbn; lia.
Qed.
Lemma boson_loop_cost h (m : list (gen I)) : forall p size ups ups' size' van,
  boson_loop io h m p size ups = LOk (ups', size', van) -> (1 <= p)%N ->
  (sumn bcost ups' <= sumn bcost ups + 3 * (length m + N.to_nat p - 1))%nat.
Proof.
  induction m as [|g m IH]; intros p size ups ups' size' van E hp; cbn [boson_loop] in E.
  - inversion E; subst. lia.
  - destruct g as [|d i|]; try discriminate. destruct (last_of_run io _ m).
    + destruct (hs_bit_range io h (ESBoson 1 i)) as [[lo hi]|]; [|discriminate].
      destruct (hs_es_dim io h (ESBoson 1 i)) as [dim|]; [|discriminate]. cbv zeta in E.
      destruct (N.ltb (sub64 dim 1) p).
      * inversion E; subst. lia.
      * apply IH in E; [|lia]. rewrite sumn_app in E. cbn [sumn bcost bu_change] in E. unfold bcost in E at 3. cbn [bu_change] in E.
        cbn [length]. destruct d; rewrite ?Z.abs_opp in E; rewrite Z.abs_eq in E by lia; lia.
    + apply IH in E; [|lia]. cbn [length]. lia.
Qed.
Lemma spin_loop_cost h (m : list (gen I)) : forall p size ups ups' size',
  spin_loop io h m p size ups = LOk (ups', size') -> (1 <= p)%N ->
  (sumn scost ups' <= sumn scost ups + 3 * (length m + N.to_nat p - 1))%nat.
Proof.
  induction m as [|g m IH]; intros p size ups ups' size' E hp; cbn [spin_loop] in E.
  - inversion E; subst. lia.
  - destruct g as [| |mult c i]; try discriminate. destruct (last_of_run io _ m).
    + destruct (hs_bit_range io h (ESSpin mult i)) as [[lo hi]|]; [|discriminate]. cbv zeta in E.
      apply IH in E; [|lia]. rewrite sumn_app in E. cbn [sumn] in E. unfold scost in E at 3. cbn [su_power] in E.
      cbn [length]. lia.
    + apply IH in E; [|lia]. cbn [length]. lia.
Qed.
Lemma mono_cost h (m : list (gen I)) a : canonical_mono io m -> index_order io -> mono_make io h [-3; -2; -1]%Z m = LOk a ->
  (sumn acost a <= 3 * length m)%nat.
Proof.
  intros C Hio E. destruct (canonical_split io Hio m C) as [mf [mb [ms [-> [F1 [F2 [F3 Sf]]]]]]].
  rewrite (mono_make_split io h mf mb ms F1 F2 F3) in E. unfold three_parts in E.
  destruct (fermion_make io h mf) as [f| | |] eqn:Ef; try discriminate. cbn [lbind] in E.
  destruct (boson_make io h mb) as [b| | |] eqn:Eb; try discriminate. cbn [lbind] in E.
  destruct (spin_make io h ms) as [s| | |] eqn:Es; try discriminate. cbn [lbind] in E. inversion E; subst a; clear E.
  apply fermion_cost in Ef. rewrite !app_length. cbn [sumn acost].
  unfold boson_make in Eb. destruct (boson_loop io h mb 1 0 []) as [[[ups sz] van]| | |] eqn:El; try discriminate. cbn [lbind] in Eb.
  apply boson_loop_cost in El; [|lia]. inversion Eb; subst b. cbn [ba_updates].
  unfold spin_make in Es. destruct (spin_loop io h ms 1 0 []) as [[ups' sz']| | |] eqn:El'; try discriminate. cbn [lbind] in Es.
  apply spin_loop_cost in El'; [|lia]. inversion Es; subst s. cbn [sa_updates]. cbn [sumn] in El, El'. lia.
Qed.
End Cost.

(** ** Accumulation of the contributions *)
Section Acc.
Context {I V : Type} (io : index_ops I) (Hio : index_order io).
Context (sv : sv_ops V S) (ok : V -> Prop) (amp : V -> N -> S) (size : V -> N) (skipped : S -> bool) (drop : R).
Context (SV : sv_rounds so sv ok amp size nrm u skipped drop) (D0 : 0 <= drop).
Context (K : nat).
Notation mel := (mel io so sq half).
Notation mabs := (mel_abs io so sq half nrm).
Notation mact := (mono_act io so sq half).

(** the number of additions to the amplitude y caused by x *)
Fixpoint hits (l : list (espace I)) (e : list (list (gen I) * S)) (y x : N) : nat :=
  match e with
  | [] => 0
  | (m, _) :: t => (match mact l m x with Some (_, z) => if N.eqb z y then 1 else 0 | None => 0 end + hits l t y x)%nat
  end.
Definition bound (J : nat) (B : R) : R := err (K + J) * B + drop * INR J * (1 + u) ^ J.
Definition acc (dst : V) (A : N -> S) (B : N -> R) (J : N -> nat) : Prop :=
  forall y, nrm (A y) <= B y /\ nrm (amp dst y [-] A y) <= bound (J y) (B y).
Lemma bound_mono J J' B B' : (J <= J')%nat -> 0 <= B <= B' -> bound J B <= bound J' B'.
Proof.
  intros HJ [H0 H1]. unfold bound. apply Rplus_le_compat.
  - apply Rmult_le_compat; auto; [apply err_pos|apply err_mono; lia].
  - rewrite !Rmult_assoc. apply Rmult_le_compat_l; auto. apply Rmult_le_compat; [apply pos_INR| |now apply le_INR|now apply pow_mono].
    pose proof (pow_ge_1 J). lra.
Qed.
Lemma bound_step (a A t t' a' : S) (B : R) (J : nat) : nrm A <= B -> nrm (a [-] A) <= bound J B -> close K t' t ->
  nrm (a' [-] (a [+] t')) <= u * nrm (a [+] t') + drop -> nrm (a' [-] (A [+] t)) <= bound (Datatypes.S J) (B + nrm t).
Proof.
  intros HA HX HC HR. unfold close in HC. pose proof (nl_pos _ _ NL t) as T0. pose proof (nl_pos _ _ NL A) as A0.
  assert (Y : nrm (t' [-] t) <= err (K + J) * nrm t).
  { eapply Rle_trans; [exact HC|]. apply Rmult_le_compat_r; auto. apply err_mono. lia. }
  assert (D1 : nrm ((a [+] t') [-] (A [+] t)) <= nrm (a [-] A) + nrm (t' [-] t)) by (rewrite add_diff; apply (nl_add _ _ NL)).
  assert (D2 : nrm (a [+] t') <= B + nrm t + (nrm (a [-] A) + nrm (t' [-] t))).
  { pose proof (near_norm (a [+] t') (A [+] t)) as Q. pose proof (nl_add _ _ NL A t). lra. }
  pose proof (tri a' (a [+] t') (A [+] t)) as D3.
  set (X := nrm (a [-] A)) in *. set (Z := nrm (t' [-] t)) in *.
  unfold bound in *. pose proof (pow_ge_1 J) as PJ. pose proof (pos_INR J) as IJ. rewrite S_INR.
  replace (K + Datatypes.S J)%nat with (Datatypes.S (K + J)) by lia. cbn [pow].
  set (E := (1 + u) ^ (K + J)) in *. set (P := (1 + u) ^ J) in *. set (d := drop * INR J * P) in *.
  assert (XZ : X + Z <= (E - 1) * (B + nrm t) + d) by nra.
  assert (M : u * nrm (a [+] t') <= u * (B + nrm t + (X + Z))) by (apply Rmult_le_compat_l; auto).
  assert (M2 : (1 + u) * (X + Z) <= (1 + u) * ((E - 1) * (B + nrm t) + d)) by (apply Rmult_le_compat_l; [lra|auto]).
  assert (M3 : drop * 1 <= drop * ((1 + u) * P)) by (apply Rmult_le_compat_l; auto; nra).
  assert (G : nrm (a' [-] (A [+] t)) <= (1 + u) * (X + Z) + u * (B + nrm t) + drop) by lra.
  eapply Rle_trans; [exact G|]. eapply Rle_trans; [apply Rplus_le_compat_r, Rplus_le_compat_r, M2|].
  replace (((1 + u) * E - 1) * (B + nrm t) + drop * (INR J + 1) * ((1 + u) * P))
    with ((1 + u) * ((E - 1) * (B + nrm t) + d) + u * (B + nrm t) + drop * ((1 + u) * P)) by (unfold d; ring). lra.
Qed.

Definition lop_round (l : list (espace I)) (e : list (list (gen I) * S)) (Lp : lop S) : Prop :=
  Forall2 (fun mc ac => implements io so sq half l (mono_run so sq half (fst ac)) (fst mc) /\ snd mc = snd ac /\
    (sumn acost (fst ac) + 2 <= K)%nat) e Lp.
Lemma mabs_pos l e y x : 0 <= mabs l e y x.
Proof.
  induction e as [|[m c] e IH]; cbn; [lra|]. apply Rplus_le_le_0_compat; auto. apply Rmult_le_pos; apply (nl_pos _ _ NL).
Qed.
Lemma acc_skip dst A B J A' B' J' : acc dst A B J -> (forall y, A' y = A y) -> (forall y, B y <= B' y) -> (forall y, J y <= J' y)%nat ->
  acc dst A' B' J'.
Proof.
  intros H E1 E2 E3 y. destruct (H y) as [H1 H2]. rewrite E1. pose proof (nl_pos _ _ NL (A y)). pose proof (E2 y). split; [lra|].
  eapply Rle_trans; [exact H2|]. apply bound_mono; auto. lra.
Qed.
Lemma act_monos_round l e Lp : StronglySorted (es_before io) l -> Forall es_wf l -> lop_round l e Lp ->
  forall x a dst A B J, valid_state l x -> ok dst -> (2 ^ N.of_nat (total_bits l) <= size dst)%N -> acc dst A B J ->
  exists dst', act_monos fo sqf halff sv Lp x a dst = Some dst' /\ ok dst' /\ size dst' = size dst /\
    acc dst' (fun y => A y [+] mel l e y x [*] a) (fun y => B y + mabs l e y x * nrm a) (fun y => (J y + hits l e y x)%nat).
Proof.
  intros S0 W. induction 1 as [|[m c] [acts c'] e Lp [Hm [Hc HK]] F IH]; intros x a dst A B J V0 O Sz HA; cbn [act_monos].
  - exists dst. split; auto. split; auto. split; auto. eapply acc_skip; [exact HA| | |]; intros y; cbn.
    + now rewrite (mul_0_l so L), (sadd_0_r so L).
    + lra.
    + lia.
  - cbn [fst snd] in *. subst c'. pose proof (mono_close acts x) as MC'.
    destruct (Hm x (s_one so) V0) as [[k [z [E1 E2]]]|[E1 E2]].
    + rewrite E2 in MC'. rewrite (sl_mul_1_l so L) in MC'. destruct (mono_run fo sqf halff acts x (s_one fo)) as [|k' z'|]; cbn in MC'; try contradiction.
      destruct MC' as [-> Ck].
      assert (Vz : valid_state l z) by (eapply mono_act_valid; eauto).
      set (t' := s_mul fo (s_mul fo c k') a). set (t := (c [*] k) [*] a).
      assert (Ct : close K t' t).
      { eapply close_mono; [|apply (close_mul (Datatypes.S (0 + sumn acost acts)) 0); [apply (close_mul 0); [apply close_refl|exact Ck]|apply close_refl]]. lia. }
      destruct (svr_add _ _ _ _ _ _ _ _ _ SV dst z t' O) as [d1 [-> [O1 [Z1 [A1 A1']]]]].
      { destruct Vz as [hz _]. lia. }
      assert (Hd1 : acc d1 (fun y => if N.eqb z y then A y [+] t else A y) (fun y => if N.eqb z y then B y + nrm t else B y)
        (fun y => if N.eqb z y then Datatypes.S (J y) else J y)).
      { intros y. destruct (HA y) as [G1 G2]. destruct (N.eqb_spec z y) as [<-|ne].
        - split; [pose proof (nl_add _ _ NL (A z) t); lra|]. now apply (bound_step (amp dst z) (A z) t t').
        - rewrite A1 by congruence. auto. }
      destruct (IH x a d1 _ _ _ V0 O1 ltac:(lia) Hd1) as [d2 [-> [O2 [Z2 A2]]]].
      exists d2. split; auto. split; auto. split; [congruence|].
      eapply acc_skip; [exact A2| | |]; intros y; cbn [LOpSpec.mel mel_abs hits]; rewrite E1; cbn [amp1].
      * rewrite (sl_dist_r so L), (sl_add_assoc so L). f_equal.
        destruct (N.eqb_spec z y); auto. rewrite (mul_0_r so L), (mul_0_l so L), (sadd_0_r so L). reflexivity.
      * destruct (N.eqb_spec z y); [|rewrite (nl_0 _ _ NL); lra]. unfold t. rewrite !(nl_mul _ _ NL). lra.
      * destruct (N.eqb_spec z y); lia.
    + rewrite E1 in MC'. destruct (mono_run fo sqf halff acts x (s_one fo)) as [|k' z'|]; cbn in MC'; try contradiction.
      destruct (IH x a dst A B J V0 O Sz HA) as [d2 [-> [O2 [Z2 A2]]]].
      exists d2. split; auto. split; auto. split; auto.
      eapply acc_skip; [exact A2| | |]; intros y; cbn [LOpSpec.mel mel_abs hits]; rewrite ?(E2 y).
      * now rewrite (mul_0_r so L), (sl_add_0 so L).
      * rewrite (nl_0 _ _ NL). lra.
      * lia.
Qed.
Fixpoint esumR (f : N -> R) (ent : list (N * S)) : R := match ent with [] => 0 | (x, a) :: t => f x * nrm a + esumR f t end.
Lemma act_entries_round l e Lp : StronglySorted (es_before io) l -> Forall es_wf l -> lop_round l e Lp ->
  forall ent dst A B J, Forall (fun p => valid_state l (fst p)) ent -> ok dst -> (2 ^ N.of_nat (total_bits l) <= size dst)%N -> acc dst A B J ->
  exists dst', act_entries fo sqf halff sv Lp ent dst = Some dst' /\ ok dst' /\ size dst' = size dst /\
    acc dst' (fun y => A y [+] esum so (mel l e y) ent) (fun y => B y + esumR (mabs l e y) ent)
      (fun y => (J y + sumn (fun p => hits l e y (fst p)) ent)%nat).
Proof.
  intros S0 W HL. induction ent as [|[x a] ent IH]; intros dst A B J F O Sz HA; cbn [act_entries].
  - exists dst. split; auto. split; auto. split; auto. eapply acc_skip; [exact HA| | |]; intros y; cbn.
    + now rewrite (sadd_0_r so L).
    + lra.
    + lia.
  - inversion F as [|? ? Vx F']; subst. cbn [fst] in Vx.
    destruct (act_monos_round l e Lp S0 W HL x a dst A B J Vx O Sz HA) as [d1 [-> [O1 [Z1 A1]]]].
    destruct (IH d1 _ _ _ F' O1 ltac:(lia) A1) as [d2 [-> [O2 [Z2 A2]]]].
    exists d2. split; auto. split; auto. split; [congruence|].
    eapply acc_skip; [exact A2| | |]; intros y; cbn [esum esumR sumn fst].
    + now rewrite (sl_add_assoc so L).
    + lra.
    + lia.
Qed.
Lemma lop_make_round (h : hspace I) e Lp : half 0%Z = s_zero so -> hs_inv io h -> hs_algs_ok h -> Forall int_mult (spaces h) ->
  (forall m c, In (m, c) e -> canonical_mono io m) -> (forall m c, In (m, c) e -> 3 * length m + 2 <= K)%nat ->
  make_loperator io e h = LOk Lp -> lop_round (spaces h) e Lp.
Proof.
  intros H0 Hi HA IM. unfold make_loperator. revert Lp. induction e as [|[m c] e IH]; intros Lp C HK E; cbn [lop_make] in E.
  - inversion E; subst. constructor.
  - destruct (mono_make io h [-3; -2; -1]%Z m) as [acts| | |] eqn:Em; try discriminate. cbn [lbind] in E.
    destruct (lop_make io h [-3; -2; -1]%Z e) as [Lt| | |] eqn:El; try discriminate. cbn [lbind] in E. inversion E; subst.
    assert (Cm : canonical_mono io m) by (eapply C; cbn; eauto).
    constructor.
    + cbn [fst snd]. split; [|split; auto].
      * eapply (mono_correct io Hio so L sq half MC H0); eauto.
      * pose proof (mono_cost io h m acts Cm Hio Em). pose proof (HK m c (or_introl eq_refl)). lia.
    + apply IH; auto; intros m' c' i; [eapply C|eapply HK]; cbn; eauto.
Qed.

(** a product of generators is an injective map *)
Lemma loc_inj g (es : espace I) n n' k c c' : loc so sq half g es n = Some (c, k) -> loc so sq half g es n' = Some (c', k) -> n = n'.
Proof.
  unfold loc. destruct g as [d i|d i|mult [| |] i].
  - destruct d; [destruct (N.eqb_spec n 0), (N.eqb_spec n' 0)|destruct (N.eqb_spec n 1), (N.eqb_spec n' 1)]; congruence.
  - destruct d.
    + destruct (N.ltb (n + 1) _), (N.ltb (n' + 1) _); intros E1 E2; inversion E1; inversion E2; lia.
    + destruct (N.eqb_spec n 0), (N.eqb_spec n' 0); intros E1 E2; inversion E1; inversion E2; lia.
  - destruct (N.ltb (n + 1) _), (N.ltb (n' + 1) _); intros E1 E2; inversion E1; inversion E2; lia.
  - destruct (N.eqb_spec n 0), (N.eqb_spec n' 0); intros E1 E2; inversion E1; inversion E2; lia.
  - intros E1 E2; inversion E1; inversion E2; congruence.
Qed.
Lemma gen_inj l g x x' c c' y : StronglySorted (es_before io) l -> Forall es_wf l -> valid_state l x -> valid_state l x' ->
  gen_act io so sq half l g x = Some (c, y) -> gen_act io so sq half l g x' = Some (c', y) -> x = x'.
Proof.
  intros S0 W Vx Vx' E E'. destruct (site_or io l g) as [[k [es H]]|H].
  - rewrite (gen_act_loc io Hio so sq half L l g k es x S0 H) in E. rewrite (gen_act_loc io Hio so sq half L l g k es x' S0 H) in E'.
    destruct (loc so sq half g es (bit_field x (offset l k) (es_nbits es))) as [[c1 n1]|] eqn:EL; [|discriminate].
    destruct (loc so sq half g es (bit_field x' (offset l k) (es_nbits es))) as [[c2 n2]|] eqn:EL'; [|discriminate].
    destruct H as [H1 H2]. injection E as _ Ey. injection E' as _ Ey'. subst y.
    pose proof (valid_field l k es x Vx H1) as B1. pose proof (valid_field l k es x' Vx' H1) as B1'.
    pose proof (loc_dim io Hio so sq half g es _ _ _ H2 B1 EL) as B2. pose proof (loc_dim io Hio so sq half g es _ _ _ H2 B1' EL') as B2'.
    assert (DB : forall q, (q < es_dim es)%N -> (q < 2 ^ N.of_nat (es_nbits es))%N).
    { intros q hq. rewrite Forall_forall in W. pose proof (W es (nth_error_In _ _ H1)) as We. pose proof (dim_le es We). lia. }
    assert (Eo : n1 = n2).
    { rewrite <- (bit_field_set x (offset l k) (es_nbits es) n1) by auto. rewrite <- Ey'. apply bit_field_set; auto. }
    subst n2. pose proof (loc_inj g es _ _ _ _ _ EL EL') as Ef.
    rewrite <- (set_field_same x (offset l k) (es_nbits es)), <- (set_field_same x' (offset l k) (es_nbits es)).
    rewrite <- Ef.
    rewrite <- (set_field_set x (offset l k) (es_nbits es) n1) by auto.
    rewrite <- (set_field_set x' (offset l k) (es_nbits es) n1) by auto. congruence.
  - rewrite gen_act_unknown in E by auto. discriminate.
Qed.
Lemma mono_inj l m : StronglySorted (es_before io) l -> Forall es_wf l -> forall x x' c c' y, valid_state l x -> valid_state l x' ->
  mact l m x = Some (c, y) -> mact l m x' = Some (c', y) -> x = x'.
Proof.
  intros S0 W. induction m as [|g m IH]; intros x x' c c' y Vx Vx' E E'; cbn [mono_act] in E, E'.
  - congruence.
  - unfold obind in E, E'. destruct (mact l m x) as [[c1 y1]|] eqn:E1; [|discriminate]. destruct (mact l m x') as [[c2 y2]|] eqn:E2; [|discriminate].
    destruct (gen_act io so sq half l g y1) as [[c3 y3]|] eqn:E3; [|discriminate]. destruct (gen_act io so sq half l g y2) as [[c4 y4]|] eqn:E4; [|discriminate].
    inversion E; subst. inversion E'; subst.
    pose proof (mono_act_valid io Hio so sq half L l m S0 W x c1 y1 Vx E1) as V1. pose proof (mono_act_valid io Hio so sq half L l m S0 W x' c2 y2 Vx' E2) as V2.
    assert (y1 = y2) by exact (gen_inj l g y1 y2 _ _ _ S0 W V1 V2 E3 E4). subst y2. exact (IH x x' _ _ _ Vx Vx' E1 E2).
Qed.
Lemma hits_bound l e y ent : StronglySorted (es_before io) l -> Forall es_wf l -> Forall (fun p => valid_state l (fst p)) ent -> NoDup (map fst ent) ->
  (sumn (fun p : N * S => hits l e y (fst p)) ent <= length e)%nat.
Proof.
  intros S0 W F ND. induction e as [|[m c] e IH]; cbn [hits length].
  - induction ent; cbn; auto. inversion F; inversion ND; subst; auto.
  - set (q := fun p : N * S => match mact l m (fst p) with Some (_, z) => if N.eqb z y then 1%nat else 0%nat | None => 0%nat end).
    assert (E : sumn (fun p : N * S => (match mact l m (fst p) with Some (_, z) => if N.eqb z y then 1 else 0 | None => 0 end + hits l e y (fst p))%nat) ent =
      (sumn q ent + sumn (fun p => hits l e y (fst p)) ent)%nat).
    { clear. induction ent as [|p ent IHe]; cbn [sumn]; auto. unfold q in *. rewrite IHe. lia. }
    rewrite E. assert (Q : (sumn q ent <= 1)%nat); [|lia].
    clear E IH. induction ent as [|[x a] ent IHe]; cbn [sumn]; auto. inversion F as [|? ? Vx F']; subst. cbn [map fst] in ND. inversion ND as [|? ? nx ND']; subst.
    specialize (IHe F' ND'). unfold q at 1. cbn [fst]. cbn [fst] in Vx. destruct (mact l m x) as [[k z]|] eqn:Ex; [|lia]. destruct (N.eqb_spec z y) as [->|]; [|lia].
    assert (Z : sumn q ent = 0%nat); [|lia]. clear IHe. clear ND ND' F. induction ent as [|[x' a'] ent IHe]; cbn [sumn]; auto.
    inversion F' as [|? ? Vx' F'']; subst. cbn [fst] in Vx'. cbn [map fst In] in nx. rewrite IHe; auto.
    unfold q. cbn [fst]. destruct (mact l m x') as [[k' z']|] eqn:Ex'; auto. destruct (N.eqb_spec z' y) as [->|]; auto.
    exfalso. apply nx. left. eapply (mono_inj l m S0 W x' x); eauto.
Qed.
End Acc.

(** ** Sums *)
Lemma rsum_ext f g l : (forall x, In x l -> f x = g x) -> rsum f l = rsum g l.
Proof. induction l; cbn; intros H; auto. rewrite H, IHl; auto. Qed.
Lemma rsum_le f g l : (forall x, In x l -> f x <= g x) -> rsum f l <= rsum g l.
Proof. induction l as [|a l IH]; cbn; intros H; [lra|]. pose proof (H a (or_introl eq_refl)). assert (rsum f l <= rsum g l) by auto. lra. Qed.
Lemma rsum_app f a b : rsum f (a ++ b) = rsum f a + rsum f b.
Proof. induction a; cbn; [ring|]. rewrite IHa. ring. Qed.
Lemma rsum_perm f a b : Permutation a b -> rsum f a = rsum f b.
Proof. induction 1; cbn; lra. Qed.
Lemma rsum_pos f l : (forall x, In x l -> 0 <= f x) -> 0 <= rsum f l.
Proof. induction l as [|a l IH]; cbn; intros H; [lra|]. pose proof (H a (or_introl eq_refl)). assert (0 <= rsum f l) by auto. lra. Qed.
Lemma ssum_norm (f : N -> S) l : nrm (ssum so f l) <= rsum (fun x => nrm (f x)) l.
Proof.
  induction l as [|a l IH]; cbn; [rewrite (nl_0 _ _ NL); lra|]. eapply Rle_trans; [apply (nl_add _ _ NL)|]. lra.
Qed.
Section Final.
Context {I V : Type} (io : index_ops I) (Hio : index_order io) (H0 : half 0%Z = s_zero so).
Context (sv : sv_ops V S) (ok : V -> Prop) (amp : V -> N -> S) (size : V -> N) (skipped : S -> bool) (drop : R).
Context (SV : sv_rounds so sv ok amp size nrm u skipped drop) (D0 : 0 <= drop).
Notation mel := (mel io so sq half).
Notation mabs := (mel_abs io so sq half nrm).

Lemma mel_mabs l e y x : nrm (mel l e y x) <= mabs l e y x.
Proof.
  induction e as [|[m c] e IH]; cbn [LOpSpec.mel mel_abs]; [rewrite (nl_0 _ _ NL); lra|].
  eapply Rle_trans; [apply (nl_add _ _ NL)|]. rewrite (nl_mul _ _ NL). lra.
Qed.
Lemma degree_ge (e : list (list (gen I) * S)) m c : In (m, c) e -> (length m <= degree e)%nat.
Proof. induction e as [|[m' c'] e IH]; [contradiction|]. intros [E|i]; change (degree ((m', c') :: e)) with (Nat.max (length m') (degree e)).
  - inversion E; subst. lia.
  - specialize (IH i). lia. Qed.

Theorem apply_error (h : hspace I) e Lp bas v ent dst : hs_inv io h -> hs_algs_ok h -> Forall int_mult (spaces h) ->
  (forall m c, In (m, c) e -> canonical_mono io m) -> make_loperator io e h = LOk Lp ->
  basis_of (spaces h) bas -> ok v -> ok dst -> (2 ^ N.of_nat (total_bits (spaces h)) <= size dst)%N ->
  (forall x, amp v x <> s_zero so -> valid_state (spaces h) x) -> sv_entries sv v ent ->
  exists w, act_entries fo sqf halff sv Lp ent (sv_zero sv dst) = Some w /\ ok w /\ size w = size dst /\
    forall y, nrm (amp w y [-] exact_amp io so sq half (spaces h) e bas (amp v) y) <=
      err (3 * degree e + 2 + length e) * rsum (fun x => mabs (spaces h) e y x * nrm (amp v x)) bas +
      rsum (fun x => if skipped (amp v x) then mabs (spaces h) e y x * nrm (amp v x) else 0) bas +
      drop * INR (length e) * (1 + u) ^ length e.
Proof.
  intros Hi HA IM C E [NB B] Ov Od Sz Hv Ee. pose proof Hi as [S0 [W _]].
  destruct (svr_entries _ _ _ _ _ _ _ _ _ SV v ent Ov Ee) as [ND [Ha Hs]].
  assert (Fv : Forall (fun p => valid_state (spaces h) (fst p)) ent).
  { apply Forall_forall. intros [x a] i. destruct (Ha x a i) as [-> n]. now apply Hv. }
  set (K := (3 * degree e + 2)%nat).
  pose proof (lop_make_round io Hio K h e Lp H0 Hi HA IM C) as LR.
  assert (HK : forall m c, In (m, c) e -> (3 * length m + 2 <= K)%nat).
  { intros m c i. unfold K. pose proof (degree_ge e m c i) as G. lia. }
  specialize (LR HK E).
  destruct (svr_zero _ _ _ _ _ _ _ _ _ SV dst Od) as [Oz [Zz Az]].
  assert (A0 : acc amp drop K (sv_zero sv dst) (fun _ => s_zero so) (fun _ => 0) (fun _ => 0%nat)).
  { intros y. rewrite Az, sub_self, (nl_0 _ _ NL). split; [lra|]. unfold bound. cbn [INR]. lra. }
  destruct (act_entries_round io Hio sv ok amp size skipped drop SV D0 K (spaces h) e Lp S0 W LR ent _ _ _ _ Fv Oz ltac:(lia) A0) as [w [Ew [Ow [Sw Aw]]]].
  exists w. split; auto. split; auto. split; [congruence|]. intros y. destruct (Aw y) as [_ Q]. cbn beta in Q.
  rewrite (sl_add_0 so L) in Q.
  set (ks := map fst ent). set (rest := filter (fun x => negb (existsb (N.eqb x) ks)) bas).
  assert (P : Permutation bas (ks ++ rest)).
  { apply NoDup_Permutation; auto.
    - apply NoDup_app'; auto; [now apply NoDup_filter|]. intros x i j. apply filter_In in j. destruct j as [_ j].
      apply negb_true_iff in j. rewrite <- not_true_iff_false, existsb_exists in j. apply j. exists x. split; auto. apply N.eqb_refl.
    - intros x. unfold rest. rewrite in_app_iff, filter_In. split.
      + intros i. destruct (existsb (N.eqb x) ks) eqn:Ex; [left|right; auto].
        apply existsb_exists in Ex. destruct Ex as [z [i2 e2]]. apply N.eqb_eq in e2. now subst.
      + intros [i|[i _]]; auto. apply B. apply in_map_iff in i. destruct i as [p [<- i]]. rewrite Forall_forall in Fv. now apply Fv. }
  assert (E1 : esum so (mel (spaces h) e y) ent = ssum so (fun x => mel (spaces h) e y x [*] amp v x) ks).
  { unfold ks. clear - Ha. induction ent as [|[x a] l IH]; cbn; auto. destruct (Ha x a (or_introl eq_refl)) as [-> _]. rewrite IH; auto.
    intros z b i. apply Ha. cbn; auto. }
  assert (E2 : esumR (mabs (spaces h) e y) ent = rsum (fun x => mabs (spaces h) e y x * nrm (amp v x)) ks).
  { unfold ks. clear - Ha. induction ent as [|[x a] l IH]; cbn; auto. destruct (Ha x a (or_introl eq_refl)) as [-> _]. rewrite IH; auto.
    intros z b i. apply Ha. cbn; auto. }
  unfold exact_amp. rewrite (ssum_perm so L _ _ _ P), (ssum_app so L).
  set (X1 := ssum so _ ks) in *. set (X2 := ssum so _ rest).
  rewrite E1 in Q.
  assert (T : nrm (amp w y [-] (X1 [+] X2)) <= nrm (amp w y [-] X1) + nrm X2).
  { eapply Rle_trans; [apply (tri _ X1)|]. apply Rplus_le_compat_l.
    rewrite <- (sadd_0_r so L X1) at 1. rewrite add_diff, sub_self, (sl_add_0 so L), (sl_sub so L), (sl_add_0 so L), (nl_neg _ _ NL). lra. }
  eapply Rle_trans; [exact T|].
  assert (P0 : forall x, 0 <= mabs (spaces h) e y x * nrm (amp v x)).
  { intros x. apply Rmult_le_pos; [apply (mabs_pos io)|apply (nl_pos _ _ NL)]. }
  assert (B1 : nrm (amp w y [-] X1) <= err (3 * degree e + 2 + length e) * rsum (fun x => mabs (spaces h) e y x * nrm (amp v x)) bas +
     drop * INR (length e) * (1 + u) ^ length e).
  { eapply Rle_trans; [exact Q|]. fold K. change (err (K + length e) * rsum (fun x => mabs (spaces h) e y x * nrm (amp v x)) bas +
      drop * INR (length e) * (1 + u) ^ length e) with (bound drop K (length e) (rsum (fun x => mabs (spaces h) e y x * nrm (amp v x)) bas)).
    apply bound_mono; auto.
    - cbn [Nat.add]. apply (hits_bound io Hio); auto.
    - rewrite E2, Rplus_0_l. split; [now apply rsum_pos|]. rewrite (rsum_perm _ _ _ P), rsum_app.
      pose proof (rsum_pos (fun x => mabs (spaces h) e y x * nrm (amp v x)) rest (fun x _ => P0 x)). lra. }
  assert (B2 : nrm X2 <= rsum (fun x => if skipped (amp v x) then mabs (spaces h) e y x * nrm (amp v x) else 0) bas).
  { unfold X2. eapply Rle_trans; [apply ssum_norm|]. rewrite (rsum_perm _ _ _ P), rsum_app.
    assert (SK : forall x, In x rest -> amp v x = s_zero so \/ skipped (amp v x) = true).
    { intros x i. apply Hs. apply filter_In in i. destruct i as [_ i]. apply negb_true_iff in i. rewrite <- not_true_iff_false, existsb_exists in i.
      intros j. apply i. exists x. split; auto. apply N.eqb_refl. }
    assert (R1 : rsum (fun x => nrm (mel (spaces h) e y x [*] amp v x)) rest <= rsum (fun x => if skipped (amp v x) then mabs (spaces h) e y x * nrm (amp v x) else 0) rest).
    { apply rsum_le. intros x i. rewrite (nl_mul _ _ NL).
      assert (G : nrm (mel (spaces h) e y x) * nrm (amp v x) <= mabs (spaces h) e y x * nrm (amp v x)).
      { apply Rmult_le_compat_r; [apply (nl_pos _ _ NL)|apply mel_mabs]. }
      destruct (SK x i) as [Z|Z].
      - rewrite Z, (nl_0 _ _ NL), !Rmult_0_r. destruct (skipped _); lra.
      - now rewrite Z. }
    assert (R2 : 0 <= rsum (fun x => if skipped (amp v x) then mabs (spaces h) e y x * nrm (amp v x) else 0) ks).
    { apply rsum_pos. intros x _. destruct (skipped _); [apply P0|lra]. }
    lra. }
  eapply Rle_trans; [apply Rplus_le_compat; [exact B1|exact B2]|]. right. subst K.
  match goal with |- ?a + ?b + ?c = ?a' + ?c' + ?b' => change a' with a; change c' with c; change b' with b; generalize a, b, c end.
  intros; ring.
Qed.
End Final.
End Err.
