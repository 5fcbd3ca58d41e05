(** * A concrete program used in the examples.

    for i in 0..N-1: for j in 0..N-1: S0: a[i][j] = f(a[i-1][j+1], a[i][j-1]);
    for i in 0..N-1: S1: b[i] = a[i][0], with one padded dimension.
    Dependences: S0 (i,j) -> (i+1,j-1), S0 (i,j) -> (i,j+1), S0 (i,0) -> S1 (i),
    and an input dependence on S1. *)
From Coq Require Import ZArith List Bool.
From Verif Require Import SpecLinear MathModel ConstraintsModel SpecProg.
Import ListNotations.
Open Scope Z_scope.

Definition ge (l : list Z) : row := mkRow false l.
Definition eq (l : list Z) : row := mkRow true l.
(** columns i j N 1 *)
Definition ex_dom0 : cst := mkCst 4 [ge [1;0;0;0]; ge [-1;0;1;-1]; ge [0;1;0;0]; ge [0;-1;1;-1]].
Definition ex_dom1 : cst := mkCst 4 [ge [1;0;0;0]; ge [-1;0;1;-1]; eq [0;1;0;0]].
Definition ex_s0 : stmt := mkStmt 2 2 [true;true] ex_dom0 (mkMat 4 [[1;0;0;0]; [1;1;0;0]; [0;0;0;0]]) [H_LOOP;H_LOOP;H_SCALAR] 0 0
  [mkMat 4 [[1;0;0;-1]; [0;1;0;1]]; mkMat 4 [[1;0;0;0]; [0;1;0;-1]]] [mkMat 4 [[1;0;0;0]; [0;1;0;0]]] None 0 (-1) (-1).
Definition ex_s1 : stmt := mkStmt 2 1 [true;false] ex_dom1 (mkMat 4 [[1;0;0;0]; [1;0;0;0]; [0;0;0;1]]) [H_LOOP;H_LOOP;H_SCALAR] 1 0
  [mkMat 4 [[1;0;0;0]; [0;0;0;0]]] [mkMat 4 [[1;0;0;0]]] None 0 (-1) (-1).
(** columns i j i' j' N 1 *)
Definition ex_d0 : cst := mkCst 6 [eq [1;0;-1;0;0;1]; eq [0;1;0;-1;0;-1]; ge [1;0;0;0;0;0]; ge [0;0;-1;0;1;-1]; ge [0;0;0;1;0;0]; ge [0;-1;0;0;1;-1]].
Definition ex_d1 : cst := mkCst 6 [eq [1;0;-1;0;0;0]; eq [0;1;0;-1;0;1]; ge [1;0;0;0;0;0]; ge [-1;0;0;0;1;-1]; ge [0;1;0;0;0;0]; ge [0;0;0;-1;1;-1]].
Definition ex_d2 : cst := mkCst 6 [eq [1;0;-1;0;0;0]; eq [0;1;0;0;0;0]; eq [0;0;0;1;0;0]; ge [1;0;0;0;0;0]; ge [-1;0;0;0;1;-1]].
Definition ex_d3 : cst := mkCst 6 [eq [1;0;-1;0;0;1]; eq [0;1;0;0;0;0]; eq [0;0;0;1;0;0]; ge [1;0;0;0;0;0]; ge [0;0;-1;0;1;-1]].
Definition ex_dep (s t : nat) (rar : bool) (c : cst) : dep := mkDep s t rar c c false (-1) [] [].
Definition ex_prog : prog :=
  mkProg 2 1 [ex_s0; ex_s1]
    [ex_dep 0 0 false ex_d0; ex_dep 0 0 false ex_d1; ex_dep 0 1 false ex_d2; ex_dep 1 1 true ex_d3]
    [H_LOOP; H_LOOP; H_SCALAR].
