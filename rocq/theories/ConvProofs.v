(** Conversions between scalar types: proofs *)
From Coq Require Import List Bool Lia Sorted.
From Verif Require Import ExprModel ExprSpec ExprOrder ExprMap ExprEval ExprHom ConvModel ConvSpec.
Import ListNotations.
Open Scope list_scope.

Lemma exact_is_hom {T S} (to : scalar_ops T) (so : scalar_ops S) f :
  exact_conversion to so f -> scalar_hom to so f.
Proof. intros []. constructor; auto. Qed.

Section Emplace.
Context {G : Type} (go : gen_ops G) (Hgo : strict_total_order (g_eq go) (g_lt go) (g_gt go)).

Lemma emplace_last {S} k (c : S) e : (forall x v, In (x, v) e -> mono_lt go x k = true) ->
  map_emplace go k c e = (e ++ [(k, c)], true).
Proof.
  induction e as [|[x v] e IH]; intros h; simpl; auto.
  rewrite (h x v); [|simpl; auto]. rewrite IH; [reflexivity|].
  intros y w i. apply (h y w). simpl; auto.
Qed.

Lemma fold_emplace {S T} (f : T -> S) (x : list (list G * T)) : forall acc,
  msorted go x ->
  (forall m c n d, In (m, c) acc -> In (n, d) x -> mono_lt go m n = true) ->
  fold_left (fun e p => fst (map_emplace go (fst p) (f (snd p)) e)) x acc = acc ++ convert_all f x.
Proof.
  induction x as [|[k c] x IH]; intros acc hs ha; simpl; [now rewrite app_nil_r|].
  rewrite emplace_last; [|intros; eapply ha; eauto; simpl; eauto]. simpl.
  apply msorted_inv in hs. destruct hs as [h1 h2].
  rewrite IH; auto.
  - rewrite <- app_assoc. reflexivity.
  - intros m d n d' i j. apply in_app_or in i. destruct i as [i|[E|[]]].
    + eapply ha; eauto. simpl; eauto.
    + injection E as <- <-. eauto.
Qed.

Lemma e_from_eq {S T} (mo : mixed_ops S T) old (x : list (list G * T)) : msorted go x ->
  e_assign_from go mo old x = convert_all (mx_conv mo) x.
Proof.
  intros h. unfold e_assign_from. rewrite (fold_emplace (mx_conv mo)); auto. 
Qed.
End Emplace.

Section By.
Context {G R T : Type} (go : gen_ops G) (ro : scalar_ops R) (to : scalar_ops T) (f : T -> R).
Context (H : scalar_hom to ro f).
Notation mo := (mixed_by ro f).

Lemma from_add_assign b : forall a, e_add_assign_from go ro mo a b = e_add_assign go ro a (convert_all f b).
Proof. induction b as [|[m c] b IH]; intros a; simpl; auto. Qed.
Lemma from_sub_assign b : forall a, e_sub_assign_from go ro mo a b = e_sub_assign go ro a (convert_all f b).
Proof. induction b as [|[m c] b IH]; intros a; simpl; auto. Qed.
Lemma from_mul_row m c b : forall t, mul_row_from go ro mo m c b t = mul_row go ro m c (convert_all f b) t.
Proof.
  induction b as [|[m2 c2] b IH]; intros t; simpl; auto.
  destruct (normalize go ro (m ++ m2) (s_mul ro c (f c2)) t); simpl; auto.
Qed.
Lemma from_mul_rows a b : forall t, mul_rows_from go ro mo a b t = mul_rows go ro a (convert_all f b) t.
Proof.
  induction a as [|[m c] a IH]; intros t; simpl; auto. rewrite from_mul_row.
  destruct (mul_row go ro m c (convert_all f b) t); simpl; auto.
Qed.
Lemma from_mul_assign a b : e_mul_assign_from go ro mo a b = e_mul go ro a (convert_all f b).
Proof. apply from_mul_rows. Qed.

Lemma from_const x : @e_const_from G R T to mo x = e_const ro (f x).
Proof. unfold e_const_from, e_const. rewrite (sh_is_zero _ _ _ H). reflexivity. Qed.
Lemma from_mono x m : e_mono_from go ro to mo x m = e_mono go ro (f x) m.
Proof. unfold e_mono_from, e_mono. rewrite (sh_is_zero _ _ _ H). reflexivity. Qed.
Lemma from_mul_scalar (a : list (list G * R)) x : e_mul_assign_scalar to mo a x = e_mul_const_post ro a (f x).
Proof. unfold e_mul_assign_scalar, e_mul_const_post. rewrite (sh_is_zero _ _ _ H). reflexivity. Qed.
Lemma from_add_assign_scalar (a : list (list G * R)) x :
  e_add_assign_scalar go ro to mo a x = e_add_assign_const go ro a (f x).
Proof. unfold e_add_assign_scalar, e_add_assign_const. rewrite (sh_is_zero _ _ _ H). reflexivity. Qed.
Lemma from_add_scalar (a : list (list G * R)) x : e_add_scalar go ro to mo a x = e_add_const go ro a (f x).
Proof. unfold e_add_scalar, e_add_const. rewrite (sh_is_zero _ _ _ H). reflexivity. Qed.
Lemma from_sub_scalar (a : list (list G * R)) x : e_sub_assign_scalar go ro to mo a x = e_sub_const go ro a (f x).
Proof. unfold e_sub_assign_scalar, e_sub_const. rewrite (sh_is_zero _ _ _ H). reflexivity. Qed.
End By.

(** scalar operations commute with exact conversions *)
Section HomScalar.
Context {G S T : Type} (go : gen_ops G) (so : scalar_ops S) (to : scalar_ops T) (phi : S -> T).
Context (H : scalar_hom so to phi).
Notation hm := (emap_map phi).

Lemma hm_mul_post (e : list (list G * S)) x : e_mul_const_post to (hm e) (phi x) = hm (e_mul_const_post so e x).
Proof.
  unfold e_mul_const_post. rewrite (sh_is_zero _ _ _ H). destruct (s_is_zero so x); auto.
  unfold emap_map. rewrite !map_map. apply map_ext. intros p. simpl. now rewrite (sh_mul _ _ _ H).
Qed.
Lemma hm_mul_pre (e : list (list G * S)) x : e_mul_const_pre to (phi x) (hm e) = hm (e_mul_const_pre so x e).
Proof.
  unfold e_mul_const_pre. rewrite (sh_is_zero _ _ _ H). destruct (s_is_zero so x); auto.
  unfold emap_map. rewrite !map_map. apply map_ext. intros p. simpl. now rewrite (sh_mul _ _ _ H).
Qed.
Lemma hm_add_const (e : list (list G * S)) x : e_add_const go to (hm e) (phi x) = hm (e_add_const go so e x).
Proof.
  unfold e_add_const. rewrite (sh_is_zero _ _ _ H). destruct (s_is_zero so x); auto.
  rewrite hm_find. destruct (map_find go [] e) as [v|]; simpl.
  - rewrite <- (sh_add _ _ _ H), (sh_is_zero _ _ _ H), hm_assign.
    destruct (s_is_zero so (s_add so v x)); auto. apply hm_erase.
  - now rewrite hm_emplace.
Qed.
Lemma hm_sub_const (e : list (list G * S)) x : e_sub_const go to (hm e) (phi x) = hm (e_sub_const go so e x).
Proof.
  unfold e_sub_const. rewrite (sh_is_zero _ _ _ H). destruct (s_is_zero so x); auto.
  rewrite hm_find. destruct (map_find go [] e) as [v|]; simpl.
  - rewrite <- (sh_sub _ _ _ H), (sh_is_zero _ _ _ H), hm_assign.
    destruct (s_is_zero so (s_sub so v x)); auto. apply hm_erase.
  - now rewrite <- (sh_zero _ _ _ H), <- (sh_sub _ _ _ H), hm_emplace.
Qed.
Lemma hm_const_sub (e : list (list G * S)) x : e_const_sub go to (phi x) (hm e) = hm (e_const_sub go so x e).
Proof.
  unfold e_const_sub. rewrite <- hm_add_const. f_equal. unfold emap_map. rewrite !map_map.
  apply map_ext. intros p. simpl. now rewrite (sh_sub _ _ _ H), (sh_zero _ _ _ H).
Qed.
End HomScalar.

(** composition *)
Lemma exact_comp {A B C} (a : scalar_ops A) (b : scalar_ops B) (c : scalar_ops C) f g :
  exact_conversion a b f -> exact_conversion b c g -> exact_conversion a c (fun x => g (f x)).
Proof.
  intros [] []. constructor; intros; repeat match goal with K : forall _, _ |- _ => rewrite K end; auto; try congruence.
Qed.
