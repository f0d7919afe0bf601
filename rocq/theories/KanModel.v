(** * Model of the example program examples/kanamori.cpp (l.32-150): the
    Kanamori Hamiltonian of a t_2g shell, its integrals of motion N, S^2 and
    L^2, and the printed difference H_K - H_t2g.  The Coulomb integrals U and J
    (l.40-41: U = 4.0, J = 0.2) are parameters here. *)
From Coq Require Import ZArith QArith Qcanon List String.
From Verif Require Import ExprModel PropHS HeisModel.
Import List ListNotations.
Close Scope Qc_scope.
Close Scope Q_scope.
Close Scope string_scope.
Open Scope list_scope.

(** static_indices::expr_real<int, std::string> and expr_complex<int,
    std::string>: kanamori.cpp l.44-46, l.115-117, l.134-136.  double and
    std::complex<double> are taken to be exact; a real expression is
    represented by the complex one it is converted to. *)
Definition kidx : Type := (Z * string)%type.
Definition kio : index_ops kidx := tuple_index_ops int_index_ops string_index_ops.
Definition kexpr : Type := list (list (gen kidx) * cx).
Notation kgo := (std_gen_ops kio).

Definition up : string := "up"%string.
Definition down : string := "down"%string.

(** c_dag(m, spin), c(m, spin), n(m, spin): kanamori.cpp l.35 (static_indices) *)
Definition kc_dag (m : Z) (s : string) : res kexpr := factory kgo hso (GFermion true (m, s)).
Definition kc (m : Z) (s : string) : res kexpr := factory kgo hso (GFermion false (m, s)).
Definition kn (m : Z) (s : string) : res kexpr := factory_n kio hso (m, s).

(** real constants and the imaginary unit (l.107) *)
Definition re (x : Qc) : cx := (x, Q2Qc 0).
Definition im (x : Qc) : cx := (Q2Qc 0, x).
Definition q (x : Q) : Qc := Q2Qc x.

(** the operators *, +, - applied to the results of two sub-expressions *)
Definition kmul (a b : res kexpr) : res kexpr := rbind a (fun x => rbind b (fun y => e_mul kgo hso x y)).
Definition kadd (a b : res kexpr) : res kexpr := rbind a (fun x => rbind b (fun y => Ok (e_add kgo hso x y))).
Definition ksub (a b : res kexpr) : res kexpr := rbind a (fun x => rbind b (fun y => Ok (e_sub kgo hso x y))).
(** constant * expression *)
Definition kscale (c : cx) (a : res kexpr) : res kexpr := rbind a (fun x => Ok (e_mul_const_pre hso c x)).
(** expression - constant *)
Definition ksub1 (a : res kexpr) (c : cx) : res kexpr := rbind a (fun x => Ok (e_sub_const kgo hso x c)).

(** the values of the orbital index: l.49, n_orbs = 3 (l.38) *)
Definition orbs : list Z := [0; 1; 2]%Z.
(** for(m...) H += t(m) *)
Definition loop1 (t : Z -> res kexpr) (H : kexpr) : res kexpr :=
  rloop (fun H m => kadd (Ok H) (t m)) orbs H.
(** for(m1...) for(m2...) { if(skip) continue; H += t(m1, m2); } *)
Definition loop2 (skip : Z -> Z -> bool) (t : Z -> Z -> res kexpr) (H : kexpr) : res kexpr :=
  rloop (fun H m1 => rloop (fun H m2 => if skip m1 m2 then Ok H else kadd (Ok H) (t m1 m2)) orbs H) orbs H.

Section Hamiltonian.
Context (U J : Qc).
Local Open Scope Qc_scope.
(** the loops of kanamori.cpp l.49-51, l.54-59, l.62-68, l.71-77, l.80-86 *)
Definition t_intra (m : Z) : res kexpr := kmul (kscale (re U) (kn m up)) (kn m down).
Definition t_inter (m1 m2 : Z) : res kexpr := kmul (kscale (re (U - q 2 * J)) (kn m1 up)) (kn m2 down).
Definition t_same_up (m1 m2 : Z) : res kexpr := kmul (kscale (re (U - q 3 * J)) (kn m1 up)) (kn m2 up).
Definition t_same_down (m1 m2 : Z) : res kexpr := kmul (kscale (re (U - q 3 * J)) (kn m1 down)) (kn m2 down).
Definition t_flip (m1 m2 : Z) : res kexpr :=
  kmul (kmul (kmul (kscale (re (- J)) (kc_dag m1 up)) (kc m1 down)) (kc_dag m2 down)) (kc m2 up).
Definition t_hop (m1 m2 : Z) : res kexpr :=
  kmul (kmul (kmul (kscale (re J) (kc_dag m1 up)) (kc_dag m1 down)) (kc m2 down)) (kc m2 up).

(** H_K: kanamori.cpp l.43-86 *)
Definition loop2s (skip : Z -> Z -> bool) (t t' : Z -> Z -> res kexpr) (H : kexpr) : res kexpr :=
  rloop (fun H m1 => rloop (fun H m2 => if skip m1 m2 then Ok H else
    rbind (kadd (Ok H) (t m1 m2)) (fun H' => kadd (Ok H') (t' m1 m2))) orbs H) orbs H.
Definition build_HK : res kexpr :=
  rbind (loop1 t_intra []) (fun H1 =>
  rbind (loop2 Z.eqb t_inter H1) (fun H2 =>
  rbind (loop2s Z.geb t_same_up t_same_down H2) (fun H3 =>
  rbind (loop2 Z.eqb t_flip H3) (fun H4 =>
  loop2 Z.eqb t_hop H4)))).
End Hamiltonian.

(** N, S_x, S_y, S_z, S^2: kanamori.cpp l.98-101, l.104-116 *)
Definition build_N : res kexpr := loop1 (fun m => kadd (kn m up) (kn m down)) [].
Definition build_Sx : res kexpr := loop1 (fun m => kscale (re (q (1 # 2)))
  (kadd (kmul (kc_dag m up) (kc m down)) (kmul (kc_dag m down) (kc m up)))) [].
Definition build_Sy : res kexpr := loop1 (fun m => kscale (im (q (1 # 2)))
  (ksub (kmul (kc_dag m down) (kc m up)) (kmul (kc_dag m up) (kc m down)))) [].
Definition build_Sz : res kexpr := loop1 (fun m => kscale (re (q (1 # 2))) (ksub (kn m up) (kn m down))) [].
(** A * A + B * B + C * C *)
Definition squares (A B C : kexpr) : res kexpr :=
  kadd (kadd (kmul (Ok A) (Ok A)) (kmul (Ok B) (Ok B))) (kmul (Ok C) (Ok C)).

(** Levi-Civita symbol: kanamori.cpp l.119-122 (int division) *)
Definition eps (i j k : Z) : Z := Z.quot ((j - i) * (k - j) * (k - i)) 2.
(** L_x, L_y, L_z (i = 0, 1, 2): kanamori.cpp l.131-139; the three sums are
    independent, so each has its own copy of the loop nest *)
Definition build_L (i : Z) : res kexpr :=
  rloop (fun L s => loop2 (fun _ _ => false)
    (fun m1 m2 => kmul (kscale (im (q (inject_Z (eps i m1 m2)))) (kc_dag m1 s)) (kc m2 s)) L) [up; down] [].

(** H_t2g: kanamori.cpp l.144-145 *)
Definition build_t2g (U J : Qc) (N S2 L2 : kexpr) : res kexpr :=
  kadd (ksub (ksub (kmul (kscale (re (Qcdiv (U - q 3 * J)%Qc (q 2))) (Ok N)) (ksub1 (Ok N) (re (q 1))))
                   (kscale (re (q 2 * J)%Qc) (Ok S2)))
             (kscale (re (Qcdiv J (q 2))) (Ok L2)))
       (kscale (re (q (5 # 2) * J)%Qc) (Ok N)).

(** the objects of main() and what it prints: H_K (l.89) and H_K - H_t2g
    (l.148).  kanamori.cpp l.32-151 *)
Record kan : Type := mk_kan { k_HK : kexpr; k_N : kexpr; k_S : list kexpr; k_L : list kexpr;
  k_S2 : kexpr; k_L2 : kexpr; k_t2g : kexpr; k_diff : kexpr }.
Definition kanamori_main (U J : Qc) : res kan :=
  rbind (build_HK U J) (fun H =>
  rbind build_N (fun N =>
  rbind build_Sx (fun Sx => rbind build_Sy (fun Sy => rbind build_Sz (fun Sz =>
  rbind (squares Sx Sy Sz) (fun S2 =>
  rbind (build_L 0) (fun Lx => rbind (build_L 1) (fun Ly => rbind (build_L 2) (fun Lz =>
  rbind (squares Lx Ly Lz) (fun L2 =>
  rbind (build_t2g U J N S2 L2) (fun T =>
  Ok (mk_kan H N [Sx; Sy; Sz] [Lx; Ly; Lz] S2 L2 T (e_sub kgo hso H T))))))))))))).
