*.vo
*.vok
*.vos
*.glob
*.aux
*.cache
.*.d
.Makefile.d
rocq/Makefile
rocq/Makefile.conf
