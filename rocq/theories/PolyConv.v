(** The class polynomial is an exact copy of the ring of canonical polynomials,
    and evaluation at a point is a homomorphism. *)
From Coq Require Import ZArith List Bool Lia.
From Verif Require Import ExprModel ExprSpec ExprHom ConvSpec PolyModel PolyProofs.
Import ListNotations.
Open Scope nat_scope.
Open Scope list_scope.

Section Conv.
Context {T : Type} (bo : scalar_ops T) (L : scalar_laws bo).
Notation z := (s_zero bo).
Notation "x + y" := (s_add bo x y).
Notation "x * y" := (s_mul bo x y).
Notation cf l n := (nth n l z).
Notation "l == l'" := (ceq bo l l') (at level 70).

Lemma coeffs_of l : coeffs (poly_of bo l) == l.
Proof. destruct l as [|c t]; intros n; [destruct n as [|[|n]]; reflexivity|reflexivity]. Qed.
Lemma len_coeffs (p : poly) : length (@coeffs T p) = Datatypes.S (degree p).
Proof. unfold degree, coeffs. cbn [length]. lia. Qed.

Lemma nth_map_seq {A} (f : nat -> A) d m n : nth n (map f (seq 0 m)) d = if n <? m then f n else d.
Proof.
  destruct (n <? m) eqn:E.
  - apply Nat.ltb_lt in E. rewrite (nth_indep _ d (f 0)) by (now rewrite map_length, seq_length).
    rewrite map_nth, seq_nth; auto.
  - apply Nat.ltb_ge in E. apply nth_overflow. now rewrite map_length, seq_length.
Qed.
Lemma zip_cf op p q n : op z z = z -> cf (coeffs (zip_with bo op p q)) n = op (cf (coeffs p) n) (cf (coeffs q) n).
Proof.
  intros H. unfold zip_with. rewrite coeffs_of, nth_map_seq.
  pose proof (len_coeffs p) as lp. pose proof (len_coeffs q) as lq.
  destruct (n <? Nat.max (degree p) (degree q) + 1) eqn:E.
  - unfold at_. f_equal.
    + destruct (Nat.leb_spec n (degree p)); auto. symmetry. apply nth_overflow. lia.
    + destruct (Nat.leb_spec n (degree q)); auto. symmetry. apply nth_overflow. lia.
  - apply Nat.ltb_ge in E. rewrite !nth_overflow by lia. now symmetry.
Qed.
Lemma add_cf p q : coeffs (poly_add bo p q) == ladd bo (coeffs p) (coeffs q).
Proof. intros n. unfold poly_add. rewrite zip_cf by apply (sl_add_0 bo L). now rewrite (cf_add bo L). Qed.
Lemma sub_cf p q : coeffs (poly_sub bo p q) == ladd bo (coeffs p) (lneg bo (coeffs q)).
Proof.
  intros n. unfold poly_sub. rewrite zip_cf.
  - rewrite (cf_add bo L), (cf_neg bo L). apply (sl_sub bo L).
  - rewrite (sl_sub bo L). apply (sl_neg bo L).
Qed.
Lemma const_cf x : coeffs (poly_const bo x) == [x]. Proof. intros n. reflexivity. Qed.
Lemma scale_cf x p : (forall a b, a * b = b * a) -> coeffs (poly_scale bo x p) == lscal bo x (coeffs p).
Proof.
  intros C n. unfold poly_scale. rewrite coeffs_of. rewrite (cf_scal bo L). revert n.
  induction (coeffs p) as [|c t IH]; intros n; cbn [map].
  - rewrite cf_nil, (mr0 bo L). destruct n; reflexivity.
  - destruct n; cbn [nth]; auto.
Qed.

(** sums *)
Fixpoint lsum (l : list T) : T := match l with [] => z | c :: t => c + lsum t end.
Lemma lsum_app l l' : lsum (l ++ l') = lsum l + lsum l'.
Proof. induction l as [|c l IH]; cbn [app lsum]; [now rewrite (sl_add_0 bo L)|]. now rewrite IH, (sl_add_assoc bo L). Qed.
Lemma lsum_0 {A} (f : A -> T) l : (forall i, In i l -> f i = z) -> lsum (map f l) = z.
Proof. induction l as [|c l IH]; intros H; cbn [map lsum]; auto. rewrite (H c (or_introl eq_refl)), IH by (intros; apply H; now right). apply (sl_add_0 bo L). Qed.
Lemma lsum_ext {A} (f g : A -> T) l : (forall i, In i l -> f i = g i) -> lsum (map f l) = lsum (map g l).
Proof. intros H. f_equal. now apply map_ext_in. Qed.
Lemma lsum_one (f : nat -> T) b m n : lsum (map (fun j => if n =? j then f j else z) (seq b m)) = if (b <=? n) && (n <? Nat.add b m) then f n else z.
Proof.
  revert b. induction m as [|m IH]; intros b; cbn [seq map lsum].
  - destruct (Nat.leb_spec b n), (Nat.ltb_spec n (Nat.add b 0)); auto; lia.
  - rewrite IH. destruct (Nat.eqb_spec n b) as [->|ne].
    + rewrite (proj2 (Nat.leb_gt (Datatypes.S b) b)) by lia. rewrite Nat.leb_refl. cbn [andb].
      rewrite (proj2 (Nat.ltb_lt b (Nat.add b (Datatypes.S m)))) by lia. apply (ad0 bo L).
    + rewrite (sl_add_0 bo L). destruct (Nat.leb_spec b n), (Nat.leb_spec (Datatypes.S b) n); cbn [andb]; try lia; auto.
      replace (Nat.add (Datatypes.S b) m) with (Nat.add b (Datatypes.S m)) by lia. reflexivity.
Qed.

(** the loops of operator* *)
Lemma len_add_at r : forall k x, length (add_at bo r k x) = length r.
Proof. induction r as [|a t IH]; intros [|k] x; cbn [add_at length]; auto. Qed.
Lemma add_at_cf r : forall k x n, k < length r -> cf (add_at bo r k x) n = cf r n + (if n =? k then x else z).
Proof.
  induction r as [|a t IH]; intros k x n; cbn [length]; [lia|]. destruct k as [|k]; cbn [add_at]; intros H.
  - destruct n as [|n]; cbn [nth Nat.eqb]; [reflexivity|]. now rewrite (ad0 bo L).
  - destruct n as [|n]; cbn [nth Nat.eqb]; [now rewrite (ad0 bo L)|]. apply IH. lia.
Qed.
Lemma inner_cf (f : nat -> T) i js : forall r n, (forall j, In j js -> (i + j)%nat < length r) ->
  let r' := fold_left (fun r j => add_at bo r (i + j)%nat (f j)) js r in
  length r' = length r /\ cf r' n = cf r n + lsum (map (fun j => if n =? (i + j)%nat then f j else z) js).
Proof.
  induction js as [|j js IH]; intros r n H; cbn [fold_left map lsum].
  - split; auto. now rewrite (ad0 bo L).
  - destruct (IH (add_at bo r (i + j)%nat (f j)) n) as [l c].
    + intros k hk. rewrite len_add_at. apply H. now right.
    + rewrite len_add_at in l. split; [exact l|]. rewrite c, add_at_cf by (apply H; now left).
      now rewrite (sl_add_assoc bo L).
Qed.
Lemma outer_cf (f : nat -> nat -> T) m is : forall r n, (forall i j, In i is -> j < m -> (i + j)%nat < length r) ->
  cf (fold_left (fun r i => fold_left (fun r j => add_at bo r (i + j)%nat (f i j)) (seq 0 m) r) is r) n =
  cf r n + lsum (map (fun i => lsum (map (fun j => if n =? (i + j)%nat then f i j else z) (seq 0 m))) is).
Proof.
  induction is as [|i is IH]; intros r n H; cbn [fold_left map lsum].
  - now rewrite (ad0 bo L).
  - destruct (inner_cf (f i) i (seq 0 m) r n) as [l c].
    + intros j hj. apply in_seq in hj. apply H; [now left|lia].
    + rewrite IH.
      * rewrite c. now rewrite (sl_add_assoc bo L).
      * intros i' j h1 h2. rewrite l. apply H; [now right|exact h2].
Qed.
Lemma double_sum p q n :
  lsum (map (fun i => lsum (map (fun j => if n =? (i + j)%nat then cf p i * cf q j else z) (seq 0 (length q)))) (seq 0 (length p)))
  = cf (lmul bo p q) n.
Proof.
  revert n. induction p as [|a p IH]; intros n.
  - cbn [length seq map lsum lmul]. now rewrite cf_nil.
  - rewrite (cf_mul_cons bo L). cbn [length seq map lsum]. f_equal.
    + cbn [Nat.add nth]. rewrite (lsum_one (fun j => a * cf q j)). cbn [Nat.leb andb Nat.add].
      destruct (Nat.ltb_spec n (length q)); auto. now rewrite (nth_overflow q) by lia; rewrite (mr0 bo L).
    + rewrite <- seq_shift, map_map. destruct n as [|n].
      * apply lsum_0. intros i _. apply lsum_0. intros j _. reflexivity.
      * rewrite <- IH. apply lsum_ext. intros i _. apply lsum_ext. intros j _. reflexivity.
Qed.
Lemma mul_cf p q : coeffs (poly_mul bo p q) == lmul bo (coeffs p) (coeffs q).
Proof.
  intros n. unfold poly_mul. rewrite coeffs_of.
  pose proof (len_coeffs p) as lp. pose proof (len_coeffs q) as lq.
  rewrite (outer_cf (fun i j => at_ bo p i * at_ bo q j)).
  - rewrite <- double_sum, lp, lq. rewrite !Nat.add_1_r. unfold at_.
    replace (cf (repeat z _) n) with z.
    + apply (sl_add_0 bo L).
    + symmetry. clear. generalize (Datatypes.S (Nat.add (degree p) (degree q))). intros m. revert n. induction m; intros [|n]; cbn [repeat nth]; auto.
  - intros i j hi hj. apply in_seq in hi. rewrite repeat_length. lia.
Qed.

Lemma norm_nil_iff l : norm bo l = [] <-> forallb (s_is_zero bo) l = true.
Proof.
  induction l as [|c t IH]; cbn [norm forallb]; [tauto|]. destruct (norm bo t) as [|d t'].
  - rewrite (proj1 IH eq_refl), andb_true_r. destruct (s_is_zero bo c); split; congruence.
  - split; [discriminate|]. intros E. apply andb_prop in E. destruct E as [_ E]. apply IH in E. discriminate.
Qed.

Definition pj (p : poly) : cpoly bo := pack bo (coeffs p).
Theorem poly_exact : exact_conversion (poly_ops bo) (cpoly_ops bo) pj.
Proof.
  assert (A : forall l l', l == l' -> pack bo l = pack bo l') by apply (pack_eq bo L).
  assert (N : forall p, proj1_sig (pj p) == coeffs p) by (intros p n; apply (norm_cf bo L)).
  constructor.
  - apply const_0; auto.
  - intros p q. apply A. intros n. cbn [s_add poly_ops]. rewrite add_cf, !(cf_add bo L), !N. reflexivity.
  - intros p q. apply A. intros n. cbn [s_sub poly_ops]. rewrite sub_cf, !(cf_add bo L), !(cf_neg bo L), !N. reflexivity.
  - intros p q. apply A. intros n. cbn [s_mul poly_ops]. rewrite mul_cf.
    rewrite (mul_ext_l bo L _ _ (proj1_sig (pj q)) (N p)), (mul_ext_r bo L _ _ _ (N q)). reflexivity.
  - intros p. apply A. intros n. cbn [s_neg poly_ops]. rewrite sub_cf, (cf_add bo L), !(cf_neg bo L), N.
    change (cf (coeffs (poly_const bo z)) n) with (cf [z] n). destruct n as [|[|n]]; cbn [nth]; apply (sl_add_0 bo L).
  - reflexivity.
  - intros p. cbn [s_is_zero cpoly_ops poly_ops]. unfold pj, pack, poly_is_zero. cbn [proj1_sig].
    pose proof (norm_nil_iff (coeffs p)) as K. destruct (norm bo (coeffs p)), (forallb (s_is_zero bo) (coeffs p)); auto.
    + symmetry. now apply K.
    + destruct K as [_ K]. specialize (K eq_refl). discriminate.
  - intros v p. cbn [s_make poly_ops cpoly_ops]. destruct (s_make bo v) as [c|]; cbn [option_map]; [|discriminate].
    intros E. inversion E; subst p. reflexivity.
Qed.

(** ** Evaluation at a point, for commutative coefficients *)
Section Eval.
Context (C : forall a b, a * b = b * a) (x : T).
Fixpoint heval (l : list T) : T := match l with [] => z | c :: t => c + heval t * x end.
Lemma eval_loop_heval l : forall sum xn, eval_loop bo l x sum xn = sum + heval l * xn.
Proof.
  induction l as [|c t IH]; intros sum xn; cbn [eval_loop heval]; [now rewrite (ml0 bo L), (ad0 bo L)|].
  rewrite IH, (sl_dist_r bo L), <- (sl_add_assoc bo L). do 2 f_equal.
  rewrite <- (sl_mul_assoc bo L). f_equal. apply C.
Qed.
Lemma eval_heval p : poly_eval bo p x = heval (coeffs p).
Proof. unfold poly_eval. now rewrite eval_loop_heval, (sl_add_0 bo L), (sl_mul_1_r bo L). Qed.
Lemma heval_zero l : l == [] -> heval l = z.
Proof.
  induction l as [|c t IH]; intros E; cbn [heval]; auto. rewrite IH.
  - pose proof (E 0) as E0. cbn in E0. rewrite E0, (ml0 bo L). apply (sl_add_0 bo L).
  - intros n. specialize (E (Datatypes.S n)). rewrite cf_nil in E |- *. exact E.
Qed.
Lemma heval_ext l : forall l', l == l' -> heval l = heval l'.
Proof.
  induction l as [|c t IH]; intros l' E.
  - symmetry. apply heval_zero. intros n. now rewrite <- E.
  - destruct l' as [|d t'].
    + apply heval_zero. exact E.
    + cbn [heval]. pose proof (E 0) as E0. cbn in E0. subst d. do 2 f_equal. apply IH. intros n. exact (E (Datatypes.S n)).
Qed.
Lemma heval_add p : forall q, heval (ladd bo p q) = heval p + heval q.
Proof.
  induction p as [|a p IH]; intros [|b q]; cbn [ladd heval]; rewrite ?(sl_add_0 bo L), ?(ad0 bo L); auto.
  rewrite IH, (sl_dist_r bo L). apply (ad4 bo L).
Qed.
Lemma heval_scal a p : heval (lscal bo a p) = a * heval p.
Proof.
  induction p as [|b p IH]; cbn [lscal map heval]; [now rewrite (mr0 bo L)|]. fold (lscal bo a p).
  now rewrite IH, (sl_dist_l bo L), (sl_mul_assoc bo L).
Qed.
Lemma heval_neg p : heval p + heval (lneg bo p) = z.
Proof.
  rewrite <- heval_add. apply heval_zero. intros n. rewrite (cf_add bo L), (cf_neg bo L), cf_nil. apply (sl_neg bo L).
Qed.
Lemma heval_sub p q : heval (ladd bo p (lneg bo q)) = s_sub bo (heval p) (heval q).
Proof.
  rewrite heval_add, (sl_sub bo L). f_equal.
  rewrite <- (sl_add_0 bo L (heval (lneg bo q))), <- (sl_neg bo L (heval q)).
  rewrite (sl_add_comm bo L (heval q)), <- (sl_add_assoc bo L), heval_neg. apply (ad0 bo L).
Qed.
Lemma heval_mul p q : heval (lmul bo p q) = heval p * heval q.
Proof.
  induction p as [|a p IH]; cbn [lmul heval]; [now rewrite (ml0 bo L)|].
  rewrite heval_add, heval_scal, (sl_dist_r bo L). cbn [heval]. f_equal. rewrite (sl_add_0 bo L), IH.
  rewrite <- !(sl_mul_assoc bo L). f_equal. apply C.
Qed.
Lemma heval_pj p : heval (proj1_sig (pj p)) = poly_eval bo p x.
Proof. rewrite eval_heval. apply heval_ext. intros n. apply (norm_cf bo L). Qed.
End Eval.
End Conv.
