(** Lists of coefficients with and without trailing zeros: the canonical ones
    form a ring, which the class [poly] of PolyModel.v implements. *)
From Coq Require Import ZArith List Bool Lia Eqdep_dec Ring.
From Verif Require Import ExprModel ExprSpec ExprHom ConvSpec PolyModel.
Import ListNotations.
Open Scope nat_scope.
Open Scope list_scope.

Section Lists.
Context {T : Type} (bo : scalar_ops T) (L : scalar_laws bo).
Notation z := (s_zero bo).
Notation "x + y" := (s_add bo x y).
Notation "x * y" := (s_mul bo x y).
Notation cf l n := (nth n l z).

Lemma ad0 x : x + z = x. Proof. rewrite (sl_add_comm bo L). apply (sl_add_0 bo L). Qed.
Lemma ml0 x : z * x = z.
Proof.
  assert (E : z * x + z * x = z * x) by (rewrite <- (sl_dist_r bo L), (sl_add_0 bo L); reflexivity).
  assert (F : (z * x + z * x) + s_neg bo (z * x) = z * x + s_neg bo (z * x)) by (now rewrite E).
  rewrite <- (sl_add_assoc bo L), (sl_neg bo L), ad0 in F. exact F.
Qed.
Lemma mr0 x : x * z = z.
Proof.
  assert (E : x * z + x * z = x * z) by (rewrite <- (sl_dist_l bo L), (sl_add_0 bo L); reflexivity).
  assert (F : (x * z + x * z) + s_neg bo (x * z) = x * z + s_neg bo (x * z)) by (now rewrite E).
  rewrite <- (sl_add_assoc bo L), (sl_neg bo L), ad0 in F. exact F.
Qed.
Lemma ad4 a b c d : (a + b) + (c + d) = (a + c) + (b + d).
Proof. rewrite <- !(sl_add_assoc bo L). f_equal. rewrite !(sl_add_assoc bo L). f_equal. apply (sl_add_comm bo L). Qed.
Lemma neg0 : s_neg bo z = z. Proof. rewrite <- (sl_add_0 bo L (s_neg bo z)). apply (sl_neg bo L). Qed.

Lemma cf_nil n : cf (@nil T) n = z. Proof. now destruct n. Qed.
Fixpoint ladd (p q : list T) : list T :=
  match p, q with
  | [], _ => q
  | _, [] => p
  | a :: p', b :: q' => a + b :: ladd p' q'
  end.
Definition lscal (a : T) (p : list T) : list T := map (s_mul bo a) p.
Definition lneg (p : list T) : list T := map (s_neg bo) p.
Fixpoint lmul (p q : list T) : list T :=
  match p with [] => [] | a :: p' => ladd (lscal a q) (z :: lmul p' q) end.

Lemma cf_add p : forall q n, cf (ladd p q) n = cf p n + cf q n.
Proof.
  induction p as [|a p IH]; intros [|b q] n; cbn [ladd]; rewrite ?cf_nil, ?(sl_add_0 bo L), ?ad0; auto.
  destruct n; cbn [nth]; auto.
Qed.
Lemma cf_scal a p n : cf (lscal a p) n = a * cf p n.
Proof. revert n. induction p as [|b p IH]; intros [|n]; cbn [lscal map nth]; rewrite ?mr0; auto. Qed.
Lemma cf_neg p n : cf (lneg p) n = s_neg bo (cf p n).
Proof. revert n. induction p as [|b p IH]; intros [|n]; cbn [lneg map nth]; rewrite ?neg0; auto. Qed.
Lemma cf_mul_cons a p q n : cf (lmul (a :: p) q) n = a * cf q n + match n with O => z | Datatypes.S m => cf (lmul p q) m end.
Proof. cbn [lmul]. rewrite cf_add, cf_scal. now destruct n. Qed.

Definition ceq (p q : list T) : Prop := forall n, cf p n = cf q n.
Lemma mul_ext_r p q q' : ceq q q' -> ceq (lmul p q) (lmul p q').
Proof.
  intros E. induction p as [|a p IH]; intros n; [reflexivity|]. rewrite !cf_mul_cons, (E n). f_equal. destruct n; auto.
Qed.
Lemma mul_0_left p q : ceq p [] -> ceq (lmul p q) [].
Proof.
  induction p as [|a p IH]; intros E n; [reflexivity|]. rewrite cf_mul_cons, cf_nil.
  pose proof (E 0%nat) as E0. cbn in E0. subst a. rewrite ml0, (sl_add_0 bo L). destruct n; auto. rewrite IH, cf_nil; auto.
  intros m. specialize (E (Datatypes.S m)). cbn [nth] in E. now rewrite E, !cf_nil.
Qed.
Lemma mul_ext_l p : forall p' q, ceq p p' -> ceq (lmul p q) (lmul p' q).
Proof.
  induction p as [|a p IH]; intros [|b p'] q E.
  - intros n; reflexivity.
  - intros n. symmetry. apply mul_0_left. intros m. now rewrite <- E.
  - apply mul_0_left. exact E.
  - intros n. rewrite !cf_mul_cons. pose proof (E 0%nat) as E0. cbn in E0. subst b. f_equal. destruct n; auto. apply IH.
    intros m. exact (E (Datatypes.S m)).
Qed.
Lemma mul_nil_r p : ceq (lmul p []) [].
Proof. induction p as [|a p IH]; intros n; [reflexivity|]. rewrite cf_mul_cons, !cf_nil, mr0, (sl_add_0 bo L). destruct n; auto. now rewrite IH, cf_nil. Qed.
Lemma mul_dist_l p q r : ceq (lmul p (ladd q r)) (ladd (lmul p q) (lmul p r)).
Proof.
  induction p as [|a p IH]; intros n; [cbn; destruct n; reflexivity|]. rewrite cf_add, !cf_mul_cons, cf_add, (sl_dist_l bo L).
  rewrite ad4. f_equal. destruct n; [now rewrite ad0|]. now rewrite IH, cf_add.
Qed.
Lemma mul_dist_r p : forall p' q, ceq (lmul (ladd p p') q) (ladd (lmul p q) (lmul p' q)).
Proof.
  induction p as [|a p IH]; intros [|b p'] q n; cbn [ladd].
  - reflexivity.
  - reflexivity.
  - rewrite cf_add. cbn [lmul]. now rewrite cf_nil, ad0.
  - rewrite cf_add, !cf_mul_cons, (sl_dist_r bo L), ad4. f_equal. destruct n; [now rewrite ad0|]. now rewrite IH, cf_add.
Qed.
Lemma mul_scal a p q : ceq (lmul (lscal a p) q) (lscal a (lmul p q)).
Proof.
  induction p as [|b p IH]; intros n; [reflexivity|]. rewrite cf_scal. cbn [lscal map]. fold (lscal a p). rewrite !cf_mul_cons, (sl_dist_l bo L).
  rewrite (sl_mul_assoc bo L). f_equal. destruct n; [now rewrite mr0|]. now rewrite IH, cf_scal.
Qed.
Lemma mul_shift p q : ceq (lmul (z :: p) q) (z :: lmul p q).
Proof. intros n. rewrite cf_mul_cons, ml0, (sl_add_0 bo L). now destruct n. Qed.
Lemma mul_assoc p q r : ceq (lmul p (lmul q r)) (lmul (lmul p q) r).
Proof.
  induction p as [|a p IH]; intros n; [reflexivity|]. rewrite cf_mul_cons. cbn [lmul]. fold (lmul p q). rewrite mul_dist_r, cf_add.
  rewrite mul_scal, cf_scal, mul_shift. f_equal. destruct n; auto. cbn [nth]. apply IH.
Qed.
Lemma mul_1_left q : ceq (lmul [s_one bo] q) q.
Proof. intros n. rewrite cf_mul_cons, (sl_mul_1_l bo L). cbn [lmul]. destruct n; rewrite ?cf_nil, ad0; auto. Qed.
Lemma mul_1_right p : ceq (lmul p [s_one bo]) p.
Proof.
  induction p as [|a p IH]; intros n; [reflexivity|]. rewrite cf_mul_cons. destruct n.
  - cbn [nth]. now rewrite (sl_mul_1_r bo L), ad0.
  - change (cf [s_one bo] (Datatypes.S n)) with (cf (@nil T) n). rewrite cf_nil, mr0, (sl_add_0 bo L). apply IH.
Qed.

(** ** Canonical lists: the last coefficient is not zero *)
Fixpoint canonb (l : list T) : bool :=
  match l with [] => true | c :: t => match t with [] => negb (s_is_zero bo c) | _ => canonb t end end.
Fixpoint norm (l : list T) : list T :=
  match l with
  | [] => []
  | c :: t => match norm t with [] => if s_is_zero bo c then [] else [c] | t' => c :: t' end
  end.
Lemma norm_canon l : canonb (norm l) = true.
Proof.
  induction l as [|c t IH]; auto. cbn [norm]. destruct (norm t) as [|d t'].
  - destruct (s_is_zero bo c) eqn:E; cbn; auto. now rewrite E.
  - exact IH.
Qed.
Lemma norm_cf l : ceq (norm l) l.
Proof.
  induction l as [|c t IH]; intros n; [reflexivity|]. cbn [norm]. destruct (norm t) as [|d t'] eqn:E.
  - destruct (s_is_zero bo c) eqn:Z.
    + apply (sl_is_zero bo L) in Z. subst c. rewrite cf_nil. destruct n; auto. cbn [nth]. now rewrite <- IH, cf_nil.
    + destruct n; auto. cbn [nth]. rewrite <- IH. reflexivity.
  - destruct n; auto. cbn [nth]. apply IH.
Qed.
Lemma canon_cons c t : canonb (c :: t) = true -> t <> [] -> canonb t = true.
Proof. cbn. now destruct t. Qed.
Lemma canon_zero l : canonb l = true -> ceq l [] -> l = [].
Proof.
  induction l as [|c t IH]; auto. intros C E. exfalso. assert (t = []).
  { destruct t as [|d t]; auto. apply IH; [exact C|]. intros n. specialize (E (Datatypes.S n)). rewrite cf_nil in E |- *. exact E. }
  subst t. cbn in C. specialize (E 0%nat). cbn in E. subst c. rewrite (proj2 (sl_is_zero bo L z) eq_refl) in C. discriminate.
Qed.
Lemma canon_eq p : forall q, canonb p = true -> canonb q = true -> ceq p q -> p = q.
Proof.
  induction p as [|a p IH]; intros q Cp Cq E.
  - symmetry. apply canon_zero; auto. intros n. now rewrite <- E.
  - destruct q as [|b q]; [apply canon_zero; auto|]. pose proof (E 0%nat) as E0. cbn in E0. subst b. f_equal.
    assert (E' : ceq p q) by (intros n; exact (E (Datatypes.S n))).
    destruct p as [|c p], q as [|d q].
    + reflexivity.
    + exfalso. assert (X : d :: q = []) by (apply canon_zero; [exact Cq|intros n; now rewrite <- E']). discriminate.
    + exfalso. assert (X : c :: p = []) by (apply canon_zero; [exact Cp|exact E']). discriminate.
    + apply IH; auto.
Qed.
Lemma norm_eq p q : ceq p q -> norm p = norm q.
Proof. intros E. apply canon_eq; try apply norm_canon. intros n. now rewrite !norm_cf. Qed.
Lemma norm_id p : canonb p = true -> norm p = p.
Proof. intros C. apply canon_eq; auto; [apply norm_canon|apply norm_cf]. Qed.
End Lists.

(** ** The ring of canonical polynomials *)
Section Ring.
Context {T : Type} (bo : scalar_ops T).
Notation z := (s_zero bo).
Notation cf l n := (nth n l z).
Definition cpoly : Type := { l : list T | canonb bo l = true }.
Definition pack (l : list T) : cpoly := exist _ (norm bo l) (norm_canon bo l).
Definition cpoly_ops : scalar_ops cpoly :=
  mk_scalar_ops cpoly (pack []) (pack [s_one bo]) (fun p q => pack (ladd bo (proj1_sig p) (proj1_sig q))) (fun p q => pack (ladd bo (proj1_sig p) (lneg bo (proj1_sig q))))
    (fun p q => pack (lmul bo (proj1_sig p) (proj1_sig q))) (fun p => pack (lneg bo (proj1_sig p))) (fun p => match (proj1_sig p) with [] => true | _ => false end)
    (fun v => option_map (fun c => pack [c]) (s_make bo v)) (fun p => p).

Lemma cpoly_eq (p q : cpoly) : (proj1_sig p) = (proj1_sig q) -> p = q.
Proof.
  destruct p as [p Cp], q as [q Cq]. cbn. intros ->. f_equal. apply UIP_dec. apply bool_dec.
Qed.
Context (L : scalar_laws bo).
Lemma peq (p q : cpoly) : ceq bo (proj1_sig p) (proj1_sig q) -> p = q.
Proof. intros E. apply cpoly_eq. apply (canon_eq bo L); auto; [apply (proj2_sig p)|apply (proj2_sig q)]. Qed.
Lemma pcf l n : cf (proj1_sig (pack l)) n = cf l n. Proof. apply (norm_cf bo L). Qed.
Lemma pack_eq l l' : ceq bo l l' -> pack l = pack l'.
Proof. intros E. apply peq. intros n. now rewrite !pcf. Qed.
Lemma pack_id (p : cpoly) : pack (proj1_sig p) = p.
Proof. apply peq. intros n. apply pcf. Qed.
Lemma const_0 : pack [z] = pack []. Proof. apply pack_eq. intros [|[|n]]; reflexivity. Qed.
Lemma const_add a b : s_add cpoly_ops (pack [a]) (pack [b]) = pack [s_add bo a b].
Proof. apply peq. intros n. cbn [s_add cpoly_ops]. rewrite pcf, (cf_add bo L), !pcf. destruct n as [|[|n]]; cbn [nth]; auto; apply (sl_add_0 bo L). Qed.
Lemma const_neg a : s_neg cpoly_ops (pack [a]) = pack [s_neg bo a].
Proof. apply peq. intros n. cbn [s_neg cpoly_ops]. rewrite pcf, (cf_neg bo L), !pcf. destruct n as [|[|n]]; cbn [nth]; auto; apply (neg0 bo L). Qed.
Lemma const_nmul n a : nmul cpoly_ops n (pack [a]) = pack [nmul bo n a].
Proof. induction n as [|n IH]; cbn [nmul]; [symmetry; apply const_0|]. now rewrite IH, const_add. Qed.
Lemma const_zmul k a : zmul cpoly_ops k (pack [a]) = pack [zmul bo k a].
Proof. destruct k; cbn [zmul]; [symmetry; apply const_0|apply const_nmul|]. now rewrite const_nmul, const_neg. Qed.
Lemma czero (p : cpoly) : s_is_zero cpoly_ops p = true <-> p = s_zero cpoly_ops.
Proof.
  cbn. split.
  - intros E. apply cpoly_eq. cbn. now destruct (proj1_sig p).
  - intros ->. reflexivity.
Qed.
Theorem cpoly_laws : scalar_laws cpoly_ops.
Proof.
  constructor.
  - intros x y. apply pack_eq. intros n. rewrite !(cf_add bo L). apply (sl_add_comm bo L).
  - intros x y w. apply pack_eq. intros n. cbn [s_add cpoly_ops]. rewrite !(cf_add bo L), !pcf, !(cf_add bo L). apply (sl_add_assoc bo L).
  - intros x. apply peq. intros n. cbn [s_add s_zero cpoly_ops]. rewrite pcf, (cf_add bo L), pcf, cf_nil. apply (sl_add_0 bo L).
  - intros x. apply pack_eq. intros n. cbn [s_neg cpoly_ops]. rewrite (cf_add bo L), pcf, (cf_neg bo L), cf_nil. apply (sl_neg bo L).
  - intros x y. apply pack_eq. intros n. cbn [s_neg cpoly_ops]. now rewrite !(cf_add bo L), pcf.
  - intros x y w. apply pack_eq. intros n. cbn [s_mul cpoly_ops].
    rewrite (mul_ext_r bo L (proj1_sig x) _ (lmul bo (proj1_sig y) (proj1_sig w)) (pcf _)), (mul_ext_l bo L _ (lmul bo (proj1_sig x) (proj1_sig y)) (proj1_sig w) (pcf _)). apply (mul_assoc bo L).
  - intros x. apply peq. intros n. cbn [s_mul s_one cpoly_ops]. rewrite pcf, (mul_ext_l bo L _ [s_one bo] (proj1_sig x) (pcf _)). apply (mul_1_left bo L).
  - intros x. apply peq. intros n. cbn [s_mul s_one cpoly_ops]. rewrite pcf, (mul_ext_r bo L (proj1_sig x) _ [s_one bo] (pcf _)). apply (mul_1_right bo L).
  - intros x y w. apply pack_eq. intros n. cbn [s_mul s_add cpoly_ops].
    rewrite (mul_ext_r bo L (proj1_sig x) _ (ladd bo (proj1_sig y) (proj1_sig w)) (pcf _)), (mul_dist_l bo L), !(cf_add bo L), !pcf. reflexivity.
  - intros x y w. apply pack_eq. intros n. cbn [s_mul s_add cpoly_ops].
    rewrite (mul_ext_l bo L _ (ladd bo (proj1_sig x) (proj1_sig y)) (proj1_sig w) (pcf _)), (mul_dist_r bo L), !(cf_add bo L), !pcf. reflexivity.
  - exact czero.
  - intros k. cbn [s_make cpoly_ops]. rewrite (sl_make_int bo L). cbn [option_map]. f_equal. cbn [s_one cpoly_ops]. now rewrite const_zmul.
  - intros p q x. cbn [s_make cpoly_ops]. destruct (s_make bo (VRat p q)) as [c|] eqn:E; [|discriminate]. cbn. intros Q. inversion Q; subst x.
    rewrite !const_zmul. f_equal. f_equal. now apply (sl_make_rat bo L).
Qed.

(** no zero divisors *)
Lemma lead_mul p q : p <> [] -> q <> [] ->
  cf (lmul bo p q) ((length p - 1) + (length q - 1)) = s_mul bo (cf p (length p - 1)) (cf q (length q - 1)).
Proof.
  intros np nq. induction p as [|a p IH]; [congruence|]. rewrite (cf_mul_cons bo L). destruct p as [|b p].
  - cbn [length Nat.sub Nat.add nth lmul]. destruct (length q - 1) as [|[|n]]; cbn [nth]; apply (ad0 bo L).
  - assert (nb : b :: p <> []) by discriminate. specialize (IH nb).
    replace (length (a :: b :: p) - 1) with (Datatypes.S (length (b :: p) - 1)) by (cbn; lia). cbn [Nat.add].
    rewrite (nth_overflow q) by (destruct q; [congruence|cbn; lia]). rewrite (mr0 bo L), (sl_add_0 bo L). exact IH.
Qed.
Lemma canon_lead l : canonb bo l = true -> l <> [] -> cf l (length l - 1) <> z.
Proof.
  induction l as [|c t IH]; [congruence|]. intros C _. destruct t as [|d t].
  - cbn in *. intros E. subst c. rewrite (proj2 (sl_is_zero bo L z) eq_refl) in C. discriminate.
  - replace (length (c :: d :: t) - 1) with (Datatypes.S (length (d :: t) - 1)) by (cbn; lia). cbn [nth]. apply IH; [exact C|discriminate].
Qed.
Theorem cpoly_domain : scalar_domain bo -> scalar_domain cpoly_ops.
Proof.
  intros D. constructor; [exact cpoly_laws| |].
  - intros x y E. destruct (s_is_zero cpoly_ops x) eqn:Zx; [left; now apply czero|]. destruct (s_is_zero cpoly_ops y) eqn:Zy; [right; now apply czero|].
    exfalso. assert (nx : (proj1_sig x) <> []) by (intros Q; cbn in Zx; rewrite Q in Zx; discriminate).
    assert (ny : (proj1_sig y) <> []) by (intros Q; cbn in Zy; rewrite Q in Zy; discriminate).
    pose proof (lead_mul (proj1_sig x) (proj1_sig y) nx ny) as Q. rewrite <- pcf in Q. cbn [s_mul cpoly_ops] in E. rewrite E in Q. cbn [s_zero cpoly_ops] in Q.
    rewrite pcf, cf_nil in Q. symmetry in Q. apply (sd_nzd bo D) in Q.
    destruct Q as [Q|Q]; [apply (canon_lead (proj1_sig x) (proj2_sig x) nx Q)|apply (canon_lead (proj1_sig y) (proj2_sig y) ny Q)].
  - intros v x E V. cbn [s_make cpoly_ops] in E. destruct (s_make bo v) as [c|] eqn:Ec; [|discriminate]. cbn in E. inversion E; subst x.
    intros Q. apply (sd_const bo D v c Ec V). apply (f_equal (fun p : cpoly => cf (proj1_sig p) 0)) in Q. cbn [s_zero cpoly_ops] in Q. rewrite !pcf in Q. exact Q.
Qed.
End Ring.
