(** MODEL: how a number on the command line or in a response file becomes the double that a program
    computes with: make_value<double> (src/hubbard/include/cli.hpp:16-26 in the options of every
    main(), e.g. src/hubbard/hubbard_real_1d_rk4_jump.cpp:24-29) and variables[..].as<double>()
    (hubbard_real_1d_rk4_jump.cpp:36-39).
    Simplification: boost's conversion is taken to give the double nearest to the decimal numeral
    (ties to even), as strtod does; every text that is not a decimal numeral without leading "+" or
    blanks (also inf and nan) is left out (None), and the largest double is not looked at (the
    theorems bound the values far below it). *)
From Coq Require Import Reals.
From Flocq Require Import Core.
From Verif Require Import Base M_Text M_Double Spec_Numeral.
Definition option_value (l : text) : option R := option_map round_double (numeral l).
