*.cache
*.vo
*.vok
*.vos
*.glob
*.aux
.*.aux
rocq/Makefile
rocq/Makefile.conf
rocq/.Makefile.d
