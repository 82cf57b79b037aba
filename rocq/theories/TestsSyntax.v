(** Bounded sanity checks, not proofs: the documents of the repository's own
    unit tests of the tokenizer and the parser (src/lexical_analyzer/tests,
    src/syntactic_analyzer/tests) are run through the model.  The right-hand
    sides are the tokens, or the exported text of the syntax tree, that the
    model gives; they were compared with what the Rust tests assert.  File
    generated from the test sources. *)
From Coq Require Import String List Arith NArith ZArith.
From Verif Require Import Base Token Lexer Errors Ast Parser Semantic Json Lsp Cli PropsLex.
Import ListNotations.
Open Scope string_scope.

(** Real numbers are shown as written. *)
Definition as_written : Floats := {| f64_text := fun s => s |}.
Definition tree (program : string) : string :=
  match @parse uni0 (4 * String.length program) program with
  | Ok (ADomain d) => json_text 0 (@j_domain as_written d)
  | Ok (AProblem p) => json_text 0 (@j_problem as_written p)
  | Err e => "ERR " ++ match show_parsing_error e with Some m => m | None => "?" end
  | Panic _ => "PANIC"
  | OutOfFuel => "FUEL"
  end.
(** The tokens up to the end or the first error, with their lines. *)
Fixpoint tokens (n : nat) (st : lstate) : list (string * N) :=
  match n with
  | O => []
  | S n' =>
    match @get_token uni0 st with
    | (LTok TEOF, st') => [("end", line st')]
    | (LTok t, st') => (show_token t, line st') :: tokens n' st'
    | (LErr e, st') => [("error " ++ le_lexeme e, le_line e)]
    | (LPanic _, st') => [("panic", line st')]
    | (LFuel, st') => [("fuel", line st')]
    end
  end.
Definition all_tokens (program : string) : list (string * N) :=
  tokens (S (String.length program)) (lex_new program).

Definition d_file_type_test_0 : string := "(define (domain jajaja) (:predicates ()) ) ".
Example file_type_test_0 : tree d_file_type_test_0 = "ERR line 1: expected 'a predicate name', but found ')'
".
Proof. vm_compute. reflexivity. Qed.

Definition d_file_type_test_1 : string := "(define (problem jajaja2) (domain blahblah)) ".
Example file_type_test_1 : tree d_file_type_test_1 = "{
  ""requirements"": [],
  ""init_tn"": null,
  ""init_state"": [],
  ""goal"": null,
  ""objects"": []
}".
Proof. vm_compute. reflexivity. Qed.

Definition d_objects_list_test : string := "(define (problem p1) (domain bal)
                            (:objects a
                            b c 
                            - d
                            s - f t)
                          )".
Example objects_list_test : tree d_objects_list_test = "{
  ""requirements"": [],
  ""init_tn"": null,
  ""init_state"": [],
  ""goal"": null,
  ""objects"": [
    {
      ""name"": ""a"",
      ""name_pos"": {
        ""line"": 2
      },
      ""symbol_type"": ""d"",
      ""type_pos"": {
        ""line"": 4
      }
    },
    {
      ""name"": ""b"",
      ""name_pos"": {
        ""line"": 3
      },
      ""symbol_type"": ""d"",
      ""type_pos"": {
        ""line"": 4
      }
    },
    {
      ""name"": ""c"",
      ""name_pos"": {
        ""line"": 3
      },
      ""symbol_type"": ""d"",
      ""type_pos"": {
        ""line"": 4
      }
    },
    {
      ""name"": ""s"",
      ""name_pos"": {
        ""line"": 5
      },
      ""symbol_type"": ""f"",
      ""type_pos"": {
        ""line"": 5
      }
    },
    {
      ""name"": ""t"",
      ""name_pos"": {
        ""line"": 5
      }
    }
  ]
}".
Proof. vm_compute. reflexivity. Qed.

Definition d_untyped_objects_list_test : string := "(define
            (problem p1) (domain bal)
            (:objects a b
            c) )".
Example untyped_objects_list_test : tree d_untyped_objects_list_test = "{
  ""requirements"": [],
  ""init_tn"": null,
  ""init_state"": [],
  ""goal"": null,
  ""objects"": [
    {
      ""name"": ""a"",
      ""name_pos"": {
        ""line"": 3
      }
    },
    {
      ""name"": ""b"",
      ""name_pos"": {
        ""line"": 3
      }
    },
    {
      ""name"": ""c"",
      ""name_pos"": {
        ""line"": 4
      }
    }
  ]
}".
Proof. vm_compute. reflexivity. Qed.

Definition d_requirement_parsing_test : string := "(define (problem p1) (domain bal)
                (:requirements :hierarchy :method-preconditions :typing :negative-preconditions)

             ) ".
Example requirement_parsing_test : tree d_requirement_parsing_test = "{
  ""requirements"": [
    ""Hierarchy"",
    ""MethodPreconditions"",
    ""TypedObjects"",
    ""NegativePreconditions""
  ],
  ""init_tn"": null,
  ""init_state"": [],
  ""goal"": null,
  ""objects"": []
}".
Proof. vm_compute. reflexivity. Qed.

Definition d_predicate_parsing_test : string := "(define (domain bal)
                (:predicates 
                    (pred_1 ?a_1 ?a_2 - t_1 ?a_3 - t_2)
                    (pred_2)
                    (pred_3 a_1 a_2)
                )
             ) ".
Example predicate_parsing_test : tree d_predicate_parsing_test = "{
  ""name"": ""bal"",
  ""types"": null,
  ""constants"": null,
  ""requirements"": [],
  ""predicates"": [
    {
      ""name"": ""pred_1"",
      ""name_pos"": {
        ""line"": 3
      },
      ""variables"": [
        {
          ""name"": ""a_1"",
          ""name_pos"": {
            ""line"": 3
          },
          ""symbol_type"": ""t_1"",
          ""type_pos"": {
            ""line"": 3
          }
        },
        {
          ""name"": ""a_2"",
          ""name_pos"": {
            ""line"": 3
          },
          ""symbol_type"": ""t_1"",
          ""type_pos"": {
            ""line"": 3
          }
        },
        {
          ""name"": ""a_3"",
          ""name_pos"": {
            ""line"": 3
          },
          ""symbol_type"": ""t_2"",
          ""type_pos"": {
            ""line"": 3
          }
        }
      ]
    },
    {
      ""name"": ""pred_2"",
      ""name_pos"": {
        ""line"": 4
      },
      ""variables"": []
    },
    {
      ""name"": ""pred_3"",
      ""name_pos"": {
        ""line"": 5
      },
      ""variables"": [
        {
          ""name"": ""a_1"",
          ""name_pos"": {
            ""line"": 5
          }
        },
        {
          ""name"": ""a_2"",
          ""name_pos"": {
            ""line"": 5
          }
        }
      ]
    }
  ],
  ""compound_tasks"": [],
  ""methods"": [],
  ""actions"": [],
  ""functions"": []
}".
Proof. vm_compute. reflexivity. Qed.

Definition d_method_parsing_test : string := "(define (domain bal)
                (:method m_1
                    :parameters (?p1 - p ?l1 ?l2 ?l3 - loc) 
                    :task (deliver_abs ?p1 ?l1 ?l2)
                    :subtasks (and
                        (pickup ?p1 ?l1)
                        (deliver_abs ?p1 ?l2 ?l3)
                    )
                )
             ) ".
Example method_parsing_test : tree d_method_parsing_test = "{
  ""name"": ""bal"",
  ""types"": null,
  ""constants"": null,
  ""requirements"": [],
  ""predicates"": [],
  ""compound_tasks"": [],
  ""methods"": [
    {
      ""name"": {
        ""name"": ""m_1"",
        ""name_pos"": {
          ""line"": 2
        }
      },
      ""task"": {
        ""name"": ""deliver_abs"",
        ""name_pos"": {
          ""line"": 4
        }
      },
      ""task_terms"": [
        {
          ""name"": ""p1"",
          ""name_pos"": {
            ""line"": 4
          }
        },
        {
          ""name"": ""l1"",
          ""name_pos"": {
            ""line"": 4
          }
        },
        {
          ""name"": ""l2"",
          ""name_pos"": {
            ""line"": 4
          }
        }
      ],
      ""params"": [
        {
          ""name"": ""p1"",
          ""name_pos"": {
            ""line"": 3
          },
          ""symbol_type"": ""p"",
          ""type_pos"": {
            ""line"": 3
          }
        },
        {
          ""name"": ""l1"",
          ""name_pos"": {
            ""line"": 3
          },
          ""symbol_type"": ""loc"",
          ""type_pos"": {
            ""line"": 3
          }
        },
        {
          ""name"": ""l2"",
          ""name_pos"": {
            ""line"": 3
          },
          ""symbol_type"": ""loc"",
          ""type_pos"": {
            ""line"": 3
          }
        },
        {
          ""name"": ""l3"",
          ""name_pos"": {
            ""line"": 3
          },
          ""symbol_type"": ""loc"",
          ""type_pos"": {
            ""line"": 3
          }
        }
      ],
      ""precondition"": null,
      ""tn"": {
        ""subtasks"": [
          {
            ""id"": null,
            ""task"": {
              ""name"": ""pickup"",
              ""name_pos"": {
                ""line"": 6
              }
            },
            ""terms"": [
              {
                ""name"": ""p1"",
                ""name_pos"": {
                  ""line"": 6
                }
              },
              {
                ""name"": ""l1"",
                ""name_pos"": {
                  ""line"": 6
                }
              }
            ]
          },
          {
            ""id"": null,
            ""task"": {
              ""name"": ""deliver_abs"",
              ""name_pos"": {
                ""line"": 7
              }
            },
            ""terms"": [
              {
                ""name"": ""p1"",
                ""name_pos"": {
                  ""line"": 7
                }
              },
              {
                ""name"": ""l2"",
                ""name_pos"": {
                  ""line"": 7
                }
              },
              {
                ""name"": ""l3"",
                ""name_pos"": {
                  ""line"": 7
                }
              }
            ]
          }
        ],
        ""ordering_pos"": null,
        ""orderings"": {
          ""Partial"": []
        },
        ""constraints"": null
      }
    }
  ],
  ""actions"": [],
  ""functions"": []
}".
Proof. vm_compute. reflexivity. Qed.

Definition d_method_precondition_test : string := "(define (domain bal)
                (:method m_1
                    :parameters (?p1 - p ?l1 ?l2 ?l3 - loc) 
                    :task (deliver_abs ?p1 ?l1 ?l2)
                    :precondition (and (at ?p1 ?l3)
                    (driver ?l1) (not (= ?l1 ?l2)))
                    :subtasks (and
                        (pickup ?p1 ?l1)
                        (deliver_abs ?p1 ?l2 ?l3)
                    )
                )
             ) ".
Example method_precondition_test : tree d_method_precondition_test = "{
  ""name"": ""bal"",
  ""types"": null,
  ""constants"": null,
  ""requirements"": [],
  ""predicates"": [],
  ""compound_tasks"": [],
  ""methods"": [
    {
      ""name"": {
        ""name"": ""m_1"",
        ""name_pos"": {
          ""line"": 2
        }
      },
      ""task"": {
        ""name"": ""deliver_abs"",
        ""name_pos"": {
          ""line"": 4
        }
      },
      ""task_terms"": [
        {
          ""name"": ""p1"",
          ""name_pos"": {
            ""line"": 4
          }
        },
        {
          ""name"": ""l1"",
          ""name_pos"": {
            ""line"": 4
          }
        },
        {
          ""name"": ""l2"",
          ""name_pos"": {
            ""line"": 4
          }
        }
      ],
      ""params"": [
        {
          ""name"": ""p1"",
          ""name_pos"": {
            ""line"": 3
          },
          ""symbol_type"": ""p"",
          ""type_pos"": {
            ""line"": 3
          }
        },
        {
          ""name"": ""l1"",
          ""name_pos"": {
            ""line"": 3
          },
          ""symbol_type"": ""loc"",
          ""type_pos"": {
            ""line"": 3
          }
        },
        {
          ""name"": ""l2"",
          ""name_pos"": {
            ""line"": 3
          },
          ""symbol_type"": ""loc"",
          ""type_pos"": {
            ""line"": 3
          }
        },
        {
          ""name"": ""l3"",
          ""name_pos"": {
            ""line"": 3
          },
          ""symbol_type"": ""loc"",
          ""type_pos"": {
            ""line"": 3
          }
        }
      ],
      ""precondition"": {
        ""And"": [
          {
            ""Atom"": {
              ""name"": ""at"",
              ""name_pos"": {
                ""line"": 5
              },
              ""variables"": [
                {
                  ""name"": ""p1"",
                  ""name_pos"": {
                    ""line"": 5
                  }
                },
                {
                  ""name"": ""l3"",
                  ""name_pos"": {
                    ""line"": 5
                  }
                }
              ]
            }
          },
          {
            ""Atom"": {
              ""name"": ""driver"",
              ""name_pos"": {
                ""line"": 6
              },
              ""variables"": [
                {
                  ""name"": ""l1"",
                  ""name_pos"": {
                    ""line"": 6
                  }
                }
              ]
            }
          },
          {
            ""Not"": {
              ""Equals"": [
                ""l1"",
                ""l2""
              ]
            }
          }
        ]
      },
      ""tn"": {
        ""subtasks"": [
          {
            ""id"": null,
            ""task"": {
              ""name"": ""pickup"",
              ""name_pos"": {
                ""line"": 8
              }
            },
            ""terms"": [
              {
                ""name"": ""p1"",
                ""name_pos"": {
                  ""line"": 8
                }
              },
              {
                ""name"": ""l1"",
                ""name_pos"": {
                  ""line"": 8
                }
              }
            ]
          },
          {
            ""id"": null,
            ""task"": {
              ""name"": ""deliver_abs"",
              ""name_pos"": {
                ""line"": 9
              }
            },
            ""terms"": [
              {
                ""name"": ""p1"",
                ""name_pos"": {
                  ""line"": 9
                }
              },
              {
                ""name"": ""l2"",
                ""name_pos"": {
                  ""line"": 9
                }
              },
              {
                ""name"": ""l3"",
                ""name_pos"": {
                  ""line"": 9
                }
              }
            ]
          }
        ],
        ""ordering_pos"": null,
        ""orderings"": {
          ""Partial"": []
        },
        ""constraints"": null
      }
    }
  ],
  ""actions"": [],
  ""functions"": []
}".
Proof. vm_compute. reflexivity. Qed.

Definition d_universal_quantification_test : string := "(define (domain bal)
                (:method m_1
                    :parameters (?p1 - p ?l1 ?l2 ?l3 - loc) 
                    :task (deliver_abs ?p1 ?l1 ?l2)
                    :precondition (forall (?l1 ?l2 - loc) (= ?l1 ?l2))
                    :subtasks (and
                        (pickup ?p1 ?l1)
                        (deliver_abs ?p1 ?l2 ?l3)
                    )
                )
             ) ".
Example universal_quantification_test : tree d_universal_quantification_test = "{
  ""name"": ""bal"",
  ""types"": null,
  ""constants"": null,
  ""requirements"": [],
  ""predicates"": [],
  ""compound_tasks"": [],
  ""methods"": [
    {
      ""name"": {
        ""name"": ""m_1"",
        ""name_pos"": {
          ""line"": 2
        }
      },
      ""task"": {
        ""name"": ""deliver_abs"",
        ""name_pos"": {
          ""line"": 4
        }
      },
      ""task_terms"": [
        {
          ""name"": ""p1"",
          ""name_pos"": {
            ""line"": 4
          }
        },
        {
          ""name"": ""l1"",
          ""name_pos"": {
            ""line"": 4
          }
        },
        {
          ""name"": ""l2"",
          ""name_pos"": {
            ""line"": 4
          }
        }
      ],
      ""params"": [
        {
          ""name"": ""p1"",
          ""name_pos"": {
            ""line"": 3
          },
          ""symbol_type"": ""p"",
          ""type_pos"": {
            ""line"": 3
          }
        },
        {
          ""name"": ""l1"",
          ""name_pos"": {
            ""line"": 3
          },
          ""symbol_type"": ""loc"",
          ""type_pos"": {
            ""line"": 3
          }
        },
        {
          ""name"": ""l2"",
          ""name_pos"": {
            ""line"": 3
          },
          ""symbol_type"": ""loc"",
          ""type_pos"": {
            ""line"": 3
          }
        },
        {
          ""name"": ""l3"",
          ""name_pos"": {
            ""line"": 3
          },
          ""symbol_type"": ""loc"",
          ""type_pos"": {
            ""line"": 3
          }
        }
      ],
      ""precondition"": {
        ""ForAll"": [
          [
            {
              ""name"": ""l1"",
              ""name_pos"": {
                ""line"": 5
              },
              ""symbol_type"": ""loc"",
              ""type_pos"": {
                ""line"": 5
              }
            },
            {
              ""name"": ""l2"",
              ""name_pos"": {
                ""line"": 5
              },
              ""symbol_type"": ""loc"",
              ""type_pos"": {
                ""line"": 5
              }
            }
          ],
          {
            ""Equals"": [
              ""l1"",
              ""l2""
            ]
          }
        ]
      },
      ""tn"": {
        ""subtasks"": [
          {
            ""id"": null,
            ""task"": {
              ""name"": ""pickup"",
              ""name_pos"": {
                ""line"": 7
              }
            },
            ""terms"": [
              {
                ""name"": ""p1"",
                ""name_pos"": {
                  ""line"": 7
                }
              },
              {
                ""name"": ""l1"",
                ""name_pos"": {
                  ""line"": 7
                }
              }
            ]
          },
          {
            ""id"": null,
            ""task"": {
              ""name"": ""deliver_abs"",
              ""name_pos"": {
                ""line"": 8
              }
            },
            ""terms"": [
              {
                ""name"": ""p1"",
                ""name_pos"": {
                  ""line"": 8
                }
              },
              {
                ""name"": ""l2"",
                ""name_pos"": {
                  ""line"": 8
                }
              },
              {
                ""name"": ""l3"",
                ""name_pos"": {
                  ""line"": 8
                }
              }
            ]
          }
        ],
        ""ordering_pos"": null,
        ""orderings"": {
          ""Partial"": []
        },
        ""constraints"": null
      }
    }
  ],
  ""actions"": [],
  ""functions"": []
}".
Proof. vm_compute. reflexivity. Qed.

Definition d_init_state_parsing_test : string := "(define (problem p1) (domain bal)
             (:init
                (pred1 arg1 arg2)
                (pred2 arg1 arg2 arg3)
            ) ".
Example init_state_parsing_test : tree d_init_state_parsing_test = "{
  ""requirements"": [],
  ""init_tn"": null,
  ""init_state"": [
    {
      ""name"": ""pred1"",
      ""name_pos"": {
        ""line"": 3
      },
      ""variables"": [
        {
          ""name"": ""arg1"",
          ""name_pos"": {
            ""line"": 3
          }
        },
        {
          ""name"": ""arg2"",
          ""name_pos"": {
            ""line"": 3
          }
        }
      ]
    },
    {
      ""name"": ""pred2"",
      ""name_pos"": {
        ""line"": 4
      },
      ""variables"": [
        {
          ""name"": ""arg1"",
          ""name_pos"": {
            ""line"": 4
          }
        },
        {
          ""name"": ""arg2"",
          ""name_pos"": {
            ""line"": 4
          }
        },
        {
          ""name"": ""arg3"",
          ""name_pos"": {
            ""line"": 4
          }
        }
      ]
    }
  ],
  ""goal"": null,
  ""objects"": []
}".
Proof. vm_compute. reflexivity. Qed.

Definition d_init_tn_parsing_test : string := "(define (problem p1) (domain bal)
             (:htn
                :parameters (?d)
                :subtasks (and
                    (task0 (deliver package_0 
                            city_loc_0))
                    (task1 (retrieve package_1
                            city_loc_2 truck3))
                )
                :ordering (and
                    (< task0 task1)
                )
                :constraints (not (= term1 term2))
            ) ".
Example init_tn_parsing_test : tree d_init_tn_parsing_test = "{
  ""requirements"": [],
  ""init_tn"": {
    ""parameters"": [
      {
        ""name"": ""d"",
        ""name_pos"": {
          ""line"": 3
        }
      }
    ],
    ""tn"": {
      ""subtasks"": [
        {
          ""id"": {
            ""name"": ""task0"",
            ""name_pos"": {
              ""line"": 5
            }
          },
          ""task"": {
            ""name"": ""deliver"",
            ""name_pos"": {
              ""line"": 5
            }
          },
          ""terms"": [
            {
              ""name"": ""package_0"",
              ""name_pos"": {
                ""line"": 5
              }
            },
            {
              ""name"": ""city_loc_0"",
              ""name_pos"": {
                ""line"": 6
              }
            }
          ]
        },
        {
          ""id"": {
            ""name"": ""task1"",
            ""name_pos"": {
              ""line"": 7
            }
          },
          ""task"": {
            ""name"": ""retrieve"",
            ""name_pos"": {
              ""line"": 7
            }
          },
          ""terms"": [
            {
              ""name"": ""package_1"",
              ""name_pos"": {
                ""line"": 7
              }
            },
            {
              ""name"": ""city_loc_2"",
              ""name_pos"": {
                ""line"": 8
              }
            },
            {
              ""name"": ""truck3"",
              ""name_pos"": {
                ""line"": 8
              }
            }
          ]
        }
      ],
      ""ordering_pos"": {
        ""line"": 10
      },
      ""orderings"": {
        ""Partial"": [
          [
            ""task0"",
            ""task1""
          ]
        ]
      },
      ""constraints"": [
        {
          ""NotEqual"": [
            ""term1"",
            ""term2""
          ]
        }
      ]
    }
  },
  ""init_state"": [],
  ""goal"": null,
  ""objects"": []
}".
Proof. vm_compute. reflexivity. Qed.

Definition d_no_op_test : string := "(define (domain bal)
                (:action a1
                    :parameters (?p1 - p ?l1 ?l2 ?l3 - loc)
                )
             ) ".
Example no_op_test : tree d_no_op_test = "{
  ""name"": ""bal"",
  ""types"": null,
  ""constants"": null,
  ""requirements"": [],
  ""predicates"": [],
  ""compound_tasks"": [],
  ""methods"": [],
  ""actions"": [
    {
      ""name"": ""a1"",
      ""name_pos"": {
        ""line"": 2
      },
      ""parameters"": [
        {
          ""name"": ""p1"",
          ""name_pos"": {
            ""line"": 3
          },
          ""symbol_type"": ""p"",
          ""type_pos"": {
            ""line"": 3
          }
        },
        {
          ""name"": ""l1"",
          ""name_pos"": {
            ""line"": 3
          },
          ""symbol_type"": ""loc"",
          ""type_pos"": {
            ""line"": 3
          }
        },
        {
          ""name"": ""l2"",
          ""name_pos"": {
            ""line"": 3
          },
          ""symbol_type"": ""loc"",
          ""type_pos"": {
            ""line"": 3
          }
        },
        {
          ""name"": ""l3"",
          ""name_pos"": {
            ""line"": 3
          },
          ""symbol_type"": ""loc"",
          ""type_pos"": {
            ""line"": 3
          }
        }
      ],
      ""preconditions"": null,
      ""effects"": null
    }
  ],
  ""functions"": []
}".
Proof. vm_compute. reflexivity. Qed.

Definition d_init_total_order_tn_parsing_test : string := "(define (problem p1) (domain bal)
             (:htn
                :ordered-tasks (and
                    (deliver package_0 city_loc_0)
                    (retrieve package_1 city_loc_2 truck3)
                )
            ) ".
Example init_total_order_tn_parsing_test : tree d_init_total_order_tn_parsing_test = "{
  ""requirements"": [],
  ""init_tn"": {
    ""parameters"": null,
    ""tn"": {
      ""subtasks"": [
        {
          ""id"": null,
          ""task"": {
            ""name"": ""deliver"",
            ""name_pos"": {
              ""line"": 4
            }
          },
          ""terms"": [
            {
              ""name"": ""package_0"",
              ""name_pos"": {
                ""line"": 4
              }
            },
            {
              ""name"": ""city_loc_0"",
              ""name_pos"": {
                ""line"": 4
              }
            }
          ]
        },
        {
          ""id"": null,
          ""task"": {
            ""name"": ""retrieve"",
            ""name_pos"": {
              ""line"": 5
            }
          },
          ""terms"": [
            {
              ""name"": ""package_1"",
              ""name_pos"": {
                ""line"": 5
              }
            },
            {
              ""name"": ""city_loc_2"",
              ""name_pos"": {
                ""line"": 5
              }
            },
            {
              ""name"": ""truck3"",
              ""name_pos"": {
                ""line"": 5
              }
            }
          ]
        }
      ],
      ""ordering_pos"": null,
      ""orderings"": ""Total"",
      ""constraints"": null
    }
  },
  ""init_state"": [],
  ""goal"": null,
  ""objects"": []
}".
Proof. vm_compute. reflexivity. Qed.

Definition d_compound_task_parsing_test : string := "(define (domain bal)
                (:predicates )
                (:task c_1
                 :parameters (p_1 p_2 - t1 p_3 - t2)
                )
             ) ".
Example compound_task_parsing_test : tree d_compound_task_parsing_test = "{
  ""name"": ""bal"",
  ""types"": null,
  ""constants"": null,
  ""requirements"": [],
  ""predicates"": [],
  ""compound_tasks"": [
    {
      ""name"": ""c_1"",
      ""name_pos"": {
        ""line"": 3
      },
      ""parameters"": [
        {
          ""name"": ""p_1"",
          ""name_pos"": {
            ""line"": 4
          },
          ""symbol_type"": ""t1"",
          ""type_pos"": {
            ""line"": 4
          }
        },
        {
          ""name"": ""p_2"",
          ""name_pos"": {
            ""line"": 4
          },
          ""symbol_type"": ""t1"",
          ""type_pos"": {
            ""line"": 4
          }
        },
        {
          ""name"": ""p_3"",
          ""name_pos"": {
            ""line"": 4
          },
          ""symbol_type"": ""t2"",
          ""type_pos"": {
            ""line"": 4
          }
        }
      ]
    }
  ],
  ""methods"": [],
  ""actions"": [],
  ""functions"": []
}".
Proof. vm_compute. reflexivity. Qed.

Definition d_action_parsing_test : string := "(define (domain bal)
                (:action a_1
                 :parameters (p_1 p_2 - t1 p_3 - t2)
                 :precondition (not (at p_1))
                 :effect (and (not (hold p_2 p_3))
                 (at p_2))
                )
             ) ".
Example action_parsing_test : tree d_action_parsing_test = "{
  ""name"": ""bal"",
  ""types"": null,
  ""constants"": null,
  ""requirements"": [],
  ""predicates"": [],
  ""compound_tasks"": [],
  ""methods"": [],
  ""actions"": [
    {
      ""name"": ""a_1"",
      ""name_pos"": {
        ""line"": 2
      },
      ""parameters"": [
        {
          ""name"": ""p_1"",
          ""name_pos"": {
            ""line"": 3
          },
          ""symbol_type"": ""t1"",
          ""type_pos"": {
            ""line"": 3
          }
        },
        {
          ""name"": ""p_2"",
          ""name_pos"": {
            ""line"": 3
          },
          ""symbol_type"": ""t1"",
          ""type_pos"": {
            ""line"": 3
          }
        },
        {
          ""name"": ""p_3"",
          ""name_pos"": {
            ""line"": 3
          },
          ""symbol_type"": ""t2"",
          ""type_pos"": {
            ""line"": 3
          }
        }
      ],
      ""preconditions"": {
        ""Not"": {
          ""Atom"": {
            ""name"": ""at"",
            ""name_pos"": {
              ""line"": 4
            },
            ""variables"": [
              {
                ""name"": ""p_1"",
                ""name_pos"": {
                  ""line"": 4
                }
              }
            ]
          }
        }
      },
      ""effects"": {
        ""And"": [
          {
            ""Not"": {
              ""Atom"": {
                ""name"": ""hold"",
                ""name_pos"": {
                  ""line"": 5
                },
                ""variables"": [
                  {
                    ""name"": ""p_2"",
                    ""name_pos"": {
                      ""line"": 5
                    }
                  },
                  {
                    ""name"": ""p_3"",
                    ""name_pos"": {
                      ""line"": 5
                    }
                  }
                ]
              }
            }
          },
          {
            ""Atom"": {
              ""name"": ""at"",
              ""name_pos"": {
                ""line"": 6
              },
              ""variables"": [
                {
                  ""name"": ""p_2"",
                  ""name_pos"": {
                    ""line"": 6
                  }
                }
              ]
            }
          }
        ]
      }
    }
  ],
  ""functions"": []
}".
Proof. vm_compute. reflexivity. Qed.

Definition d_quantifier_parsing_test : string := "(define (domain bal)
                (:action a_1
                 :parameters (p_1 p_2 - t1 p_3 - t2)
                 :precondition (and
                    (not (at p_1))
                    (exists (?num1 ?num2 - number) (smaller ?num1 ?num2))
                 )
                 :effect (and
                    (not (hold p_2 p_3))
                    (at p_2)
                    (forall (?loc - s) (and (pred1 ?loc) (pred2 ?loc)))
                 )
                )
             ) ".
Example quantifier_parsing_test : tree d_quantifier_parsing_test = "{
  ""name"": ""bal"",
  ""types"": null,
  ""constants"": null,
  ""requirements"": [],
  ""predicates"": [],
  ""compound_tasks"": [],
  ""methods"": [],
  ""actions"": [
    {
      ""name"": ""a_1"",
      ""name_pos"": {
        ""line"": 2
      },
      ""parameters"": [
        {
          ""name"": ""p_1"",
          ""name_pos"": {
            ""line"": 3
          },
          ""symbol_type"": ""t1"",
          ""type_pos"": {
            ""line"": 3
          }
        },
        {
          ""name"": ""p_2"",
          ""name_pos"": {
            ""line"": 3
          },
          ""symbol_type"": ""t1"",
          ""type_pos"": {
            ""line"": 3
          }
        },
        {
          ""name"": ""p_3"",
          ""name_pos"": {
            ""line"": 3
          },
          ""symbol_type"": ""t2"",
          ""type_pos"": {
            ""line"": 3
          }
        }
      ],
      ""preconditions"": {
        ""And"": [
          {
            ""Not"": {
              ""Atom"": {
                ""name"": ""at"",
                ""name_pos"": {
                  ""line"": 5
                },
                ""variables"": [
                  {
                    ""name"": ""p_1"",
                    ""name_pos"": {
                      ""line"": 5
                    }
                  }
                ]
              }
            }
          },
          {
            ""Exists"": [
              [
                {
                  ""name"": ""num1"",
                  ""name_pos"": {
                    ""line"": 6
                  },
                  ""symbol_type"": ""number"",
                  ""type_pos"": {
                    ""line"": 6
                  }
                },
                {
                  ""name"": ""num2"",
                  ""name_pos"": {
                    ""line"": 6
                  },
                  ""symbol_type"": ""number"",
                  ""type_pos"": {
                    ""line"": 6
                  }
                }
              ],
              {
                ""Atom"": {
                  ""name"": ""smaller"",
                  ""name_pos"": {
                    ""line"": 6
                  },
                  ""variables"": [
                    {
                      ""name"": ""num1"",
                      ""name_pos"": {
                        ""line"": 6
                      }
                    },
                    {
                      ""name"": ""num2"",
                      ""name_pos"": {
                        ""line"": 6
                      }
                    }
                  ]
                }
              }
            ]
          }
        ]
      },
      ""effects"": {
        ""And"": [
          {
            ""Not"": {
              ""Atom"": {
                ""name"": ""hold"",
                ""name_pos"": {
                  ""line"": 9
                },
                ""variables"": [
                  {
                    ""name"": ""p_2"",
                    ""name_pos"": {
                      ""line"": 9
                    }
                  },
                  {
                    ""name"": ""p_3"",
                    ""name_pos"": {
                      ""line"": 9
                    }
                  }
                ]
              }
            }
          },
          {
            ""Atom"": {
              ""name"": ""at"",
              ""name_pos"": {
                ""line"": 10
              },
              ""variables"": [
                {
                  ""name"": ""p_2"",
                  ""name_pos"": {
                    ""line"": 10
                  }
                }
              ]
            }
          },
          {
            ""ForAll"": [
              [
                {
                  ""name"": ""loc"",
                  ""name_pos"": {
                    ""line"": 11
                  },
                  ""symbol_type"": ""s"",
                  ""type_pos"": {
                    ""line"": 11
                  }
                }
              ],
              {
                ""And"": [
                  {
                    ""Atom"": {
                      ""name"": ""pred1"",
                      ""name_pos"": {
                        ""line"": 11
                      },
                      ""variables"": [
                        {
                          ""name"": ""loc"",
                          ""name_pos"": {
                            ""line"": 11
                          }
                        }
                      ]
                    }
                  },
                  {
                    ""Atom"": {
                      ""name"": ""pred2"",
                      ""name_pos"": {
                        ""line"": 11
                      },
                      ""variables"": [
                        {
                          ""name"": ""loc"",
                          ""name_pos"": {
                            ""line"": 11
                          }
                        }
                      ]
                    }
                  }
                ]
              }
            ]
          }
        ]
      }
    }
  ],
  ""functions"": []
}".
Proof. vm_compute. reflexivity. Qed.

Definition d_non_deterministic_action_parsing_test : string := "(define (domain bal)
                (:action a_1
                 :parameters (p_1 p_2 - t1 p_3 - t2)
                 :precondition (at p1)
                 :effect (oneof (not (hold p_2 p_3)) (at p_2))
                )
             ) ".
Example non_deterministic_action_parsing_test : tree d_non_deterministic_action_parsing_test = "{
  ""name"": ""bal"",
  ""types"": null,
  ""constants"": null,
  ""requirements"": [],
  ""predicates"": [],
  ""compound_tasks"": [],
  ""methods"": [],
  ""actions"": [
    {
      ""name"": ""a_1"",
      ""name_pos"": {
        ""line"": 2
      },
      ""parameters"": [
        {
          ""name"": ""p_1"",
          ""name_pos"": {
            ""line"": 3
          },
          ""symbol_type"": ""t1"",
          ""type_pos"": {
            ""line"": 3
          }
        },
        {
          ""name"": ""p_2"",
          ""name_pos"": {
            ""line"": 3
          },
          ""symbol_type"": ""t1"",
          ""type_pos"": {
            ""line"": 3
          }
        },
        {
          ""name"": ""p_3"",
          ""name_pos"": {
            ""line"": 3
          },
          ""symbol_type"": ""t2"",
          ""type_pos"": {
            ""line"": 3
          }
        }
      ],
      ""preconditions"": {
        ""Atom"": {
          ""name"": ""at"",
          ""name_pos"": {
            ""line"": 4
          },
          ""variables"": [
            {
              ""name"": ""p1"",
              ""name_pos"": {
                ""line"": 4
              }
            }
          ]
        }
      },
      ""effects"": {
        ""Xor"": [
          {
            ""Not"": {
              ""Atom"": {
                ""name"": ""hold"",
                ""name_pos"": {
                  ""line"": 5
                },
                ""variables"": [
                  {
                    ""name"": ""p_2"",
                    ""name_pos"": {
                      ""line"": 5
                    }
                  },
                  {
                    ""name"": ""p_3"",
                    ""name_pos"": {
                      ""line"": 5
                    }
                  }
                ]
              }
            }
          },
          {
            ""Atom"": {
              ""name"": ""at"",
              ""name_pos"": {
                ""line"": 5
              },
              ""variables"": [
                {
                  ""name"": ""p_2"",
                  ""name_pos"": {
                    ""line"": 5
                  }
                }
              ]
            }
          }
        ]
      }
    }
  ],
  ""functions"": []
}".
Proof. vm_compute. reflexivity. Qed.

Definition d_probabilistic_action_parsing_test : string := "(define (domain bal)
                (:action a_1
                :parameters (p_1 p_2 - t1 p_3 - t2)
                :precondition (at p1)
                :effect (probabilistic
                    0.8 (and (not (at p_2 p_3)) (at p_2))
                    0.2 (probabilistic
                            0.5 (hold p_2 p_3)
                            0.5 (not (at p_2))
                        )
                    )
                )
            )".
Example probabilistic_action_parsing_test : tree d_probabilistic_action_parsing_test = "{
  ""name"": ""bal"",
  ""types"": null,
  ""constants"": null,
  ""requirements"": [],
  ""predicates"": [],
  ""compound_tasks"": [],
  ""methods"": [],
  ""actions"": [
    {
      ""name"": ""a_1"",
      ""name_pos"": {
        ""line"": 2
      },
      ""parameters"": [
        {
          ""name"": ""p_1"",
          ""name_pos"": {
            ""line"": 3
          },
          ""symbol_type"": ""t1"",
          ""type_pos"": {
            ""line"": 3
          }
        },
        {
          ""name"": ""p_2"",
          ""name_pos"": {
            ""line"": 3
          },
          ""symbol_type"": ""t1"",
          ""type_pos"": {
            ""line"": 3
          }
        },
        {
          ""name"": ""p_3"",
          ""name_pos"": {
            ""line"": 3
          },
          ""symbol_type"": ""t2"",
          ""type_pos"": {
            ""line"": 3
          }
        }
      ],
      ""preconditions"": {
        ""Atom"": {
          ""name"": ""at"",
          ""name_pos"": {
            ""line"": 4
          },
          ""variables"": [
            {
              ""name"": ""p1"",
              ""name_pos"": {
                ""line"": 4
              }
            }
          ]
        }
      },
      ""effects"": {
        ""And"": [
          {
            ""Weighted"": [
              {
                ""Real"": 0.8
              },
              {
                ""And"": [
                  {
                    ""Not"": {
                      ""Atom"": {
                        ""name"": ""at"",
                        ""name_pos"": {
                          ""line"": 6
                        },
                        ""variables"": [
                          {
                            ""name"": ""p_2"",
                            ""name_pos"": {
                              ""line"": 6
                            }
                          },
                          {
                            ""name"": ""p_3"",
                            ""name_pos"": {
                              ""line"": 6
                            }
                          }
                        ]
                      }
                    }
                  },
                  {
                    ""Atom"": {
                      ""name"": ""at"",
                      ""name_pos"": {
                        ""line"": 6
                      },
                      ""variables"": [
                        {
                          ""name"": ""p_2"",
                          ""name_pos"": {
                            ""line"": 6
                          }
                        }
                      ]
                    }
                  }
                ]
              }
            ]
          },
          {
            ""Weighted"": [
              {
                ""Real"": 0.2
              },
              {
                ""And"": [
                  {
                    ""Weighted"": [
                      {
                        ""Real"": 0.5
                      },
                      {
                        ""Atom"": {
                          ""name"": ""hold"",
                          ""name_pos"": {
                            ""line"": 8
                          },
                          ""variables"": [
                            {
                              ""name"": ""p_2"",
                              ""name_pos"": {
                                ""line"": 8
                              }
                            },
                            {
                              ""name"": ""p_3"",
                              ""name_pos"": {
                                ""line"": 8
                              }
                            }
                          ]
                        }
                      }
                    ]
                  },
                  {
                    ""Weighted"": [
                      {
                        ""Real"": 0.5
                      },
                      {
                        ""Not"": {
                          ""Atom"": {
                            ""name"": ""at"",
                            ""name_pos"": {
                              ""line"": 9
                            },
                            ""variables"": [
                              {
                                ""name"": ""p_2"",
                                ""name_pos"": {
                                  ""line"": 9
                                }
                              }
                            ]
                          }
                        }
                      }
                    ]
                  }
                ]
              }
            ]
          }
        ]
      }
    }
  ],
  ""functions"": []
}".
Proof. vm_compute. reflexivity. Qed.

Definition d_var_type_declaration_test : string := "(define (domain blahblah)
                (:types
                    Port AbstractDevice - Object
                    AbstractCable Device - AbstractDevice
                    PlugType PlugFace PlugDirection SignalType - Enum
                )
             ) ".
Example var_type_declaration_test : tree d_var_type_declaration_test = "{
  ""name"": ""blahblah"",
  ""types"": [
    {
      ""name"": ""Port"",
      ""name_pos"": {
        ""line"": 3
      },
      ""symbol_type"": ""Object"",
      ""type_pos"": {
        ""line"": 3
      }
    },
    {
      ""name"": ""AbstractDevice"",
      ""name_pos"": {
        ""line"": 3
      },
      ""symbol_type"": ""Object"",
      ""type_pos"": {
        ""line"": 3
      }
    },
    {
      ""name"": ""AbstractCable"",
      ""name_pos"": {
        ""line"": 4
      },
      ""symbol_type"": ""AbstractDevice"",
      ""type_pos"": {
        ""line"": 4
      }
    },
    {
      ""name"": ""Device"",
      ""name_pos"": {
        ""line"": 4
      },
      ""symbol_type"": ""AbstractDevice"",
      ""type_pos"": {
        ""line"": 4
      }
    },
    {
      ""name"": ""PlugType"",
      ""name_pos"": {
        ""line"": 5
      },
      ""symbol_type"": ""Enum"",
      ""type_pos"": {
        ""line"": 5
      }
    },
    {
      ""name"": ""PlugFace"",
      ""name_pos"": {
        ""line"": 5
      },
      ""symbol_type"": ""Enum"",
      ""type_pos"": {
        ""line"": 5
      }
    },
    {
      ""name"": ""PlugDirection"",
      ""name_pos"": {
        ""line"": 5
      },
      ""symbol_type"": ""Enum"",
      ""type_pos"": {
        ""line"": 5
      }
    },
    {
      ""name"": ""SignalType"",
      ""name_pos"": {
        ""line"": 5
      },
      ""symbol_type"": ""Enum"",
      ""type_pos"": {
        ""line"": 5
      }
    }
  ],
  ""constants"": null,
  ""requirements"": [],
  ""predicates"": [],
  ""compound_tasks"": [],
  ""methods"": [],
  ""actions"": [],
  ""functions"": []
}".
Proof. vm_compute. reflexivity. Qed.

Definition d_function_parsing_test : string := "(define (domain rover-domain)
            (:functions
                (battery-amount ?r - rover)
                (recharge-rate ?r - rover)
                (battery-capacity)
                (distance ?wp1 - waypoint ?wp2 - waypoint)
            )
        )".
Example function_parsing_test : tree d_function_parsing_test = "{
  ""name"": ""rover-domain"",
  ""types"": null,
  ""constants"": null,
  ""requirements"": [],
  ""predicates"": [],
  ""compound_tasks"": [],
  ""methods"": [],
  ""actions"": [],
  ""functions"": [
    {
      ""name"": ""battery-amount"",
      ""name_pos"": {
        ""line"": 3
      },
      ""variables"": [
        {
          ""name"": ""r"",
          ""name_pos"": {
            ""line"": 3
          },
          ""symbol_type"": ""rover"",
          ""type_pos"": {
            ""line"": 3
          }
        }
      ]
    },
    {
      ""name"": ""recharge-rate"",
      ""name_pos"": {
        ""line"": 4
      },
      ""variables"": [
        {
          ""name"": ""r"",
          ""name_pos"": {
            ""line"": 4
          },
          ""symbol_type"": ""rover"",
          ""type_pos"": {
            ""line"": 4
          }
        }
      ]
    },
    {
      ""name"": ""battery-capacity"",
      ""name_pos"": {
        ""line"": 5
      },
      ""variables"": []
    },
    {
      ""name"": ""distance"",
      ""name_pos"": {
        ""line"": 6
      },
      ""variables"": [
        {
          ""name"": ""wp1"",
          ""name_pos"": {
            ""line"": 6
          },
          ""symbol_type"": ""waypoint"",
          ""type_pos"": {
            ""line"": 6
          }
        },
        {
          ""name"": ""wp2"",
          ""name_pos"": {
            ""line"": 6
          },
          ""symbol_type"": ""waypoint"",
          ""type_pos"": {
            ""line"": 6
          }
        }
      ]
    }
  ]
}".
Proof. vm_compute. reflexivity. Qed.

Definition d_comment_test : string := ";author: me
            ; domain bal
            (define (domain bal)
                ;task c_1
                (:task c_1
                 :parameters (p_1 p_2 - t1 p_3 - t2) ;task parameters are defined here
                )
             ) ".
Example comment_test : tree d_comment_test = "{
  ""name"": ""bal"",
  ""types"": null,
  ""constants"": null,
  ""requirements"": [],
  ""predicates"": [],
  ""compound_tasks"": [
    {
      ""name"": ""c_1"",
      ""name_pos"": {
        ""line"": 5
      },
      ""parameters"": [
        {
          ""name"": ""p_1"",
          ""name_pos"": {
            ""line"": 6
          },
          ""symbol_type"": ""t1"",
          ""type_pos"": {
            ""line"": 6
          }
        },
        {
          ""name"": ""p_2"",
          ""name_pos"": {
            ""line"": 6
          },
          ""symbol_type"": ""t1"",
          ""type_pos"": {
            ""line"": 6
          }
        },
        {
          ""name"": ""p_3"",
          ""name_pos"": {
            ""line"": 6
          },
          ""symbol_type"": ""t2"",
          ""type_pos"": {
            ""line"": 6
          }
        }
      ]
    }
  ],
  ""methods"": [],
  ""actions"": [],
  ""functions"": []
}".
Proof. vm_compute. reflexivity. Qed.

Definition d_constants_declaration_test : string := "(define (domain blahblah)
                (:constants
                    Port AbstractDevice - Object
                    AbstractCable Device - AbstractDevice
                    PlugType PlugFace PlugDirection SignalType - Enum
                )
             ) ".
Example constants_declaration_test : tree d_constants_declaration_test = "{
  ""name"": ""blahblah"",
  ""types"": null,
  ""constants"": [
    {
      ""name"": ""Port"",
      ""name_pos"": {
        ""line"": 3
      },
      ""symbol_type"": ""Object"",
      ""type_pos"": {
        ""line"": 3
      }
    },
    {
      ""name"": ""AbstractDevice"",
      ""name_pos"": {
        ""line"": 3
      },
      ""symbol_type"": ""Object"",
      ""type_pos"": {
        ""line"": 3
      }
    },
    {
      ""name"": ""AbstractCable"",
      ""name_pos"": {
        ""line"": 4
      },
      ""symbol_type"": ""AbstractDevice"",
      ""type_pos"": {
        ""line"": 4
      }
    },
    {
      ""name"": ""Device"",
      ""name_pos"": {
        ""line"": 4
      },
      ""symbol_type"": ""AbstractDevice"",
      ""type_pos"": {
        ""line"": 4
      }
    },
    {
      ""name"": ""PlugType"",
      ""name_pos"": {
        ""line"": 5
      },
      ""symbol_type"": ""Enum"",
      ""type_pos"": {
        ""line"": 5
      }
    },
    {
      ""name"": ""PlugFace"",
      ""name_pos"": {
        ""line"": 5
      },
      ""symbol_type"": ""Enum"",
      ""type_pos"": {
        ""line"": 5
      }
    },
    {
      ""name"": ""PlugDirection"",
      ""name_pos"": {
        ""line"": 5
      },
      ""symbol_type"": ""Enum"",
      ""type_pos"": {
        ""line"": 5
      }
    },
    {
      ""name"": ""SignalType"",
      ""name_pos"": {
        ""line"": 5
      },
      ""symbol_type"": ""Enum"",
      ""type_pos"": {
        ""line"": 5
      }
    }
  ],
  ""requirements"": [],
  ""predicates"": [],
  ""compound_tasks"": [],
  ""methods"": [],
  ""actions"": [],
  ""functions"": []
}".
Proof. vm_compute. reflexivity. Qed.

Definition d_last_character_bug_test : string := "(define (domain bal)
                (:action a_1
                 :parameters (p_1 p_2 - t1 p_3 - t2)
                 :precondition (not (at p_1))
                 :effect (and (not (hold p_2 p_3))
                 (at p_2))
                )
             )".
Example last_character_bug_test : tree d_last_character_bug_test = "{
  ""name"": ""bal"",
  ""types"": null,
  ""constants"": null,
  ""requirements"": [],
  ""predicates"": [],
  ""compound_tasks"": [],
  ""methods"": [],
  ""actions"": [
    {
      ""name"": ""a_1"",
      ""name_pos"": {
        ""line"": 2
      },
      ""parameters"": [
        {
          ""name"": ""p_1"",
          ""name_pos"": {
            ""line"": 3
          },
          ""symbol_type"": ""t1"",
          ""type_pos"": {
            ""line"": 3
          }
        },
        {
          ""name"": ""p_2"",
          ""name_pos"": {
            ""line"": 3
          },
          ""symbol_type"": ""t1"",
          ""type_pos"": {
            ""line"": 3
          }
        },
        {
          ""name"": ""p_3"",
          ""name_pos"": {
            ""line"": 3
          },
          ""symbol_type"": ""t2"",
          ""type_pos"": {
            ""line"": 3
          }
        }
      ],
      ""preconditions"": {
        ""Not"": {
          ""Atom"": {
            ""name"": ""at"",
            ""name_pos"": {
              ""line"": 4
            },
            ""variables"": [
              {
                ""name"": ""p_1"",
                ""name_pos"": {
                  ""line"": 4
                }
              }
            ]
          }
        }
      },
      ""effects"": {
        ""And"": [
          {
            ""Not"": {
              ""Atom"": {
                ""name"": ""hold"",
                ""name_pos"": {
                  ""line"": 5
                },
                ""variables"": [
                  {
                    ""name"": ""p_2"",
                    ""name_pos"": {
                      ""line"": 5
                    }
                  },
                  {
                    ""name"": ""p_3"",
                    ""name_pos"": {
                      ""line"": 5
                    }
                  }
                ]
              }
            }
          },
          {
            ""Atom"": {
              ""name"": ""at"",
              ""name_pos"": {
                ""line"": 6
              },
              ""variables"": [
                {
                  ""name"": ""p_2"",
                  ""name_pos"": {
                    ""line"": 6
                  }
                }
              ]
            }
          }
        ]
      }
    }
  ],
  ""functions"": []
}".
Proof. vm_compute. reflexivity. Qed.

Definition d_last_character_bug_2_test : string := "(define (domain bal)
                (:action a_1
                 :parameters (p_1 p_2 - t1 p_3 - t2)
                 :precondition (not (at p_1))
                 :effect (and (not (hold p_2 p_3))
                 (at p_2))
                )
             )             ".
Example last_character_bug_2_test : tree d_last_character_bug_2_test = "{
  ""name"": ""bal"",
  ""types"": null,
  ""constants"": null,
  ""requirements"": [],
  ""predicates"": [],
  ""compound_tasks"": [],
  ""methods"": [],
  ""actions"": [
    {
      ""name"": ""a_1"",
      ""name_pos"": {
        ""line"": 2
      },
      ""parameters"": [
        {
          ""name"": ""p_1"",
          ""name_pos"": {
            ""line"": 3
          },
          ""symbol_type"": ""t1"",
          ""type_pos"": {
            ""line"": 3
          }
        },
        {
          ""name"": ""p_2"",
          ""name_pos"": {
            ""line"": 3
          },
          ""symbol_type"": ""t1"",
          ""type_pos"": {
            ""line"": 3
          }
        },
        {
          ""name"": ""p_3"",
          ""name_pos"": {
            ""line"": 3
          },
          ""symbol_type"": ""t2"",
          ""type_pos"": {
            ""line"": 3
          }
        }
      ],
      ""preconditions"": {
        ""Not"": {
          ""Atom"": {
            ""name"": ""at"",
            ""name_pos"": {
              ""line"": 4
            },
            ""variables"": [
              {
                ""name"": ""p_1"",
                ""name_pos"": {
                  ""line"": 4
                }
              }
            ]
          }
        }
      },
      ""effects"": {
        ""And"": [
          {
            ""Not"": {
              ""Atom"": {
                ""name"": ""hold"",
                ""name_pos"": {
                  ""line"": 5
                },
                ""variables"": [
                  {
                    ""name"": ""p_2"",
                    ""name_pos"": {
                      ""line"": 5
                    }
                  },
                  {
                    ""name"": ""p_3"",
                    ""name_pos"": {
                      ""line"": 5
                    }
                  }
                ]
              }
            }
          },
          {
            ""Atom"": {
              ""name"": ""at"",
              ""name_pos"": {
                ""line"": 6
              },
              ""variables"": [
                {
                  ""name"": ""p_2"",
                  ""name_pos"": {
                    ""line"": 6
                  }
                }
              ]
            }
          }
        ]
      }
    }
  ],
  ""functions"": []
}".
Proof. vm_compute. reflexivity. Qed.

Definition d_empty_tn_test : string := "(define (problem p1) (domain bal)
             (:htn ) ".
Example empty_tn_test : tree d_empty_tn_test = "{
  ""requirements"": [],
  ""init_tn"": {
    ""parameters"": null,
    ""tn"": {
      ""subtasks"": [],
      ""ordering_pos"": null,
      ""orderings"": {
        ""Partial"": []
      },
      ""constraints"": null
    }
  },
  ""init_state"": [],
  ""goal"": null,
  ""objects"": []
}".
Proof. vm_compute. reflexivity. Qed.

Definition d_file_classification_test : string := "(define (domain blahblah)
                (:constants
                    Port AbstractDevice - Object
                    AbstractCable Device - AbstractDevice
                    PlugType PlugFace PlugDirection SignalType - Enum
                )
             ) ".
Example file_classification_test : tree d_file_classification_test = "{
  ""name"": ""blahblah"",
  ""types"": null,
  ""constants"": [
    {
      ""name"": ""Port"",
      ""name_pos"": {
        ""line"": 3
      },
      ""symbol_type"": ""Object"",
      ""type_pos"": {
        ""line"": 3
      }
    },
    {
      ""name"": ""AbstractDevice"",
      ""name_pos"": {
        ""line"": 3
      },
      ""symbol_type"": ""Object"",
      ""type_pos"": {
        ""line"": 3
      }
    },
    {
      ""name"": ""AbstractCable"",
      ""name_pos"": {
        ""line"": 4
      },
      ""symbol_type"": ""AbstractDevice"",
      ""type_pos"": {
        ""line"": 4
      }
    },
    {
      ""name"": ""Device"",
      ""name_pos"": {
        ""line"": 4
      },
      ""symbol_type"": ""AbstractDevice"",
      ""type_pos"": {
        ""line"": 4
      }
    },
    {
      ""name"": ""PlugType"",
      ""name_pos"": {
        ""line"": 5
      },
      ""symbol_type"": ""Enum"",
      ""type_pos"": {
        ""line"": 5
      }
    },
    {
      ""name"": ""PlugFace"",
      ""name_pos"": {
        ""line"": 5
      },
      ""symbol_type"": ""Enum"",
      ""type_pos"": {
        ""line"": 5
      }
    },
    {
      ""name"": ""PlugDirection"",
      ""name_pos"": {
        ""line"": 5
      },
      ""symbol_type"": ""Enum"",
      ""type_pos"": {
        ""line"": 5
      }
    },
    {
      ""name"": ""SignalType"",
      ""name_pos"": {
        ""line"": 5
      },
      ""symbol_type"": ""Enum"",
      ""type_pos"": {
        ""line"": 5
      }
    }
  ],
  ""requirements"": [],
  ""predicates"": [],
  ""compound_tasks"": [],
  ""methods"": [],
  ""actions"": [],
  ""functions"": []
}".
Proof. vm_compute. reflexivity. Qed.

Definition d_punctuation_recognition_test : string := "-( 
) ".
Example punctuation_recognition_test : all_tokens d_punctuation_recognition_test = [("-", 1); ("(", 1); (")", 2); ("end", 2)].
Proof. vm_compute. reflexivity. Qed.

Definition d_ordering_relation_recognition_test : string := "<=  
> >= < 
".
Example ordering_relation_recognition_test : all_tokens d_ordering_relation_recognition_test = [("<=", 1); (">", 2); (">=", 2); ("<", 2); ("end", 3)].
Proof. vm_compute. reflexivity. Qed.

Definition d_logical_operator_recognition_test : string := "and or oneof not exists forall imply
".
Example logical_operator_recognition_test : all_tokens d_logical_operator_recognition_test = [("and", 1); ("or", 1); ("oneof", 1); ("not", 1); ("exists", 1); ("forall", 1); ("when", 1); ("end", 2)].
Proof. vm_compute. reflexivity. Qed.

Definition d_variable_recognition_test : string := "?test_id ?pred-aa ".
Example variable_recognition_test : all_tokens d_variable_recognition_test = [("Identifier test_id", 1); ("Identifier pred-aa", 1); ("end", 1)].
Proof. vm_compute. reflexivity. Qed.

Definition d_keyword_recognition_test : string := "define domain problem :requirements :objects :types :constants

            :predicates :init :htn :action :parameters :method :precondition

            :effect :subtasks :tasks :ordered-tasks :ordered-subtasks :order

            :ordering :constraints
".
Example keyword_recognition_test : all_tokens d_keyword_recognition_test = [("Keyword :define", 1); ("Keyword :domain", 1); ("Keyword :problem", 1); ("Keyword :requirements", 1); ("Keyword :objects", 1); ("Keyword :types", 1); ("Keyword :constants", 1); ("Keyword :predicates", 3); ("Keyword :init", 3); ("Keyword :htn", 3); ("Keyword :action", 3); ("Keyword :parameters", 3); ("Keyword :method", 3); ("Keyword :precondition", 3); ("Keyword :effect", 5); ("Keyword :(sub)tasks", 5); ("Keyword :(sub)tasks", 5); ("Keyword :ordered-(sub)tasks", 5); ("Keyword :ordered-(sub)tasks", 5); ("Keyword :ordering", 5); ("Keyword :ordering", 7); ("Keyword :constraints", 7); ("end", 8)].
Proof. vm_compute. reflexivity. Qed.

Definition d_number_recognition_test : string := "123.54 42
".
Example number_recognition_test : all_tokens d_number_recognition_test = [("Number 123.54", 1); ("Number 42", 1); ("end", 2)].
Proof. vm_compute. reflexivity. Qed.

Definition d_identifier_recognition_test : string := "var123 var_3123 te23 v
".
Example identifier_recognition_test : all_tokens d_identifier_recognition_test = [("Identifier var123", 1); ("Identifier var_3123", 1); ("Identifier te23", 1); ("Identifier v", 1); ("end", 2)].
Proof. vm_compute. reflexivity. Qed.

Definition d_lookahead_test : string := "(:method vDC_to_vPC_2
                :parameters (?d1 ?d2 - AbstractDevice ?t - SignalType ?p1 ?p2 - Port)
                :task (ValidateDeviceConnection ?d1 ?d2 ?t)
                :precondition (and
                        (isPartOf ?p1 ?d1)
                        (isPartOf ?p2 ?d2)
                        (isPlugDirection ?p1 out)
                        (isPlugDirection ?p2 both)
                        (isSignalSource ?p1 ?t)
                        (isSignalDestination ?p2 ?t)
                )
                :subtasks (and
                    (ValidatePortConnection ?p1 ?p2 ?t)
                )
            ) ".
Example lookahead_test : all_tokens d_lookahead_test = [("(", 1); ("Keyword :method", 1); ("Identifier vDC_to_vPC_2", 1); ("Keyword :parameters", 2); ("(", 2); ("Identifier d1", 2); ("Identifier d2", 2); ("-", 2); ("Identifier AbstractDevice", 2); ("Identifier t", 2); ("-", 2); ("Identifier SignalType", 2); ("Identifier p1", 2); ("Identifier p2", 2); ("-", 2); ("Identifier Port", 2); (")", 2); ("Keyword :task", 3); ("(", 3); ("Identifier ValidateDeviceConnection", 3); ("Identifier d1", 3); ("Identifier d2", 3); ("Identifier t", 3); (")", 3); ("Keyword :precondition", 4); ("(", 4); ("and", 4); ("(", 5); ("Identifier isPartOf", 5); ("Identifier p1", 5); ("Identifier d1", 5); (")", 5); ("(", 6); ("Identifier isPartOf", 6); ("Identifier p2", 6); ("Identifier d2", 6); (")", 6); ("(", 7); ("Identifier isPlugDirection", 7); ("Identifier p1", 7); ("Identifier out", 7); (")", 7); ("(", 8); ("Identifier isPlugDirection", 8); ("Identifier p2", 8); ("Identifier both", 8); (")", 8); ("(", 9); ("Identifier isSignalSource", 9); ("Identifier p1", 9); ("Identifier t", 9); (")", 9); ("(", 10); ("Identifier isSignalDestination", 10); ("Identifier p2", 10); ("Identifier t", 10); (")", 10); (")", 11); ("Keyword :(sub)tasks", 12); ("(", 12); ("and", 12); ("(", 13); ("Identifier ValidatePortConnection", 13); ("Identifier p1", 13); ("Identifier p2", 13); ("Identifier t", 13); (")", 13); (")", 14); (")", 15); ("end", 15)].
Proof. vm_compute. reflexivity. Qed.

Definition d_variable_name_error_test_0 : string := "

?ca<sd ".
Example variable_name_error_test_0 : all_tokens d_variable_name_error_test_0 = [("error ca<sd", 3)].
Proof. vm_compute. reflexivity. Qed.

Definition d_variable_name_error_test_1 : string := "

?rt/asd 



 ?f*ta 	 %x954s ? ".
Example variable_name_error_test_1 : all_tokens d_variable_name_error_test_1 = [("error rt/asd", 3)].
Proof. vm_compute. reflexivity. Qed.

Definition d_variable_name_error_test_2 : string := "





 ?f*ta 	 %x954s ? ".
Example variable_name_error_test_2 : all_tokens d_variable_name_error_test_2 = [("error f*ta", 7)].
Proof. vm_compute. reflexivity. Qed.

Definition d_variable_name_error_test_3 : string := "





 	 %x954s ? ".
Example variable_name_error_test_3 : all_tokens d_variable_name_error_test_3 = [("error %x954s", 7)].
Proof. vm_compute. reflexivity. Qed.

Definition d_keyword_error_test : string := "

:cra :pred 



 :defne ".
Example keyword_error_test : all_tokens d_keyword_error_test = [("error cra", 3)].
Proof. vm_compute. reflexivity. Qed.
