*.vo
*.vok
*.vos
*.glob
*.aux
.*.aux
.lia.cache
.nia.cache
.nra.cache
.Makefile.d
.CoqMakefile.d
rocq/Makefile
rocq/Makefile.conf
